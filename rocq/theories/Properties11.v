(** Theorems C47-C49, C57, C58: command-line hex codec and verdict, on-chain scripts. *)
From Coq Require Import String.
From Verif Require Import Field Poly Module ModelTranscript ModelLC ModelCS ModelGroth16 ProofsGroth16 ModelBulletproofs ProofsBulletproofs ModelCli SpecCli ModelContract ProofsCli Properties10.
Local Open Scope Z_scope.

(** ** C47 *)
Theorem C47_roundtrip : forall v, Forall is_byte v -> from_hex (to_hex v) = Ok v.
Proof. exact hex_roundtrip. Qed.
Print Assumptions C47_roundtrip.
Theorem C47_decode_exact : forall s v, from_hex s = Ok v <-> denotes s v.
Proof. exact from_hex_exact. Qed.
Print Assumptions C47_decode_exact.
Theorem C47_odd_rejected : forall s, Nat.odd (length s) = true -> exists e, from_hex s = Err e.
Proof. exact hex_odd. Qed.
Print Assumptions C47_odd_rejected.
Theorem C47_upper_case_same : forall s v, from_hex s = Ok v -> from_hex (map upcase s) = Ok v.
Proof. exact hex_upcase. Qed.
Print Assumptions C47_upper_case_same.
(** At an even position "0d" may be replaced by "+d". *)
Theorem C47_plus_same : forall n s b t v, length s = (2 * n)%nat -> from_hex (s ++ 48 :: b :: t) = Ok v -> from_hex (s ++ 43 :: b :: t) = Ok v.
Proof. exact hex_plus. Qed.
Print Assumptions C47_plus_same.
Theorem C47_ascii_never_panics : forall s, Forall (fun c => 0 <= c <= 127) s -> from_hex s <> Panic.
Proof. exact hex_ascii_no_panic. Qed.
Print Assumptions C47_ascii_never_panics.
(** "a" followed by a two-byte character and "b": the slice cuts the character. *)
Theorem C47_no_panic_refuted : exists s, from_hex s = Panic.
Proof. exists [97; 195; 169; 98]. reflexivity. Qed.
Print Assumptions C47_no_panic_refuted.
Example ex_C47 : from_hex [48; 97; 102; 70] = Ok [10; 255] /\ from_hex [43; 65; 70; 102] = Ok [10; 255] /\ to_hex [10; 255] = [48; 97; 102; 102] /\
  from_hex (map upcase (to_hex [10; 255])) = Ok [10; 255].
Proof. repeat split. Qed.

(** ** C48 *)
Theorem C48_success_exact : forall (VK P X : Type) dvk dpf dx (verify : VK -> P -> list X -> res bool) load,
  program_entry (main_single dvk dpf dx verify load) = Some 0 <->
  exists a b c vk pf x, load 0%nat = inl a /\ load 1%nat = inl b /\ load 2%nat = inl c /\ dvk a = Some vk /\ dpf b = Some pf /\ dx c = Some x /\ verify vk pf [x] = Ok true.
Proof. intros. apply single_success. Qed.
Print Assumptions C48_success_exact.
Theorem C48_success_exact_vector : forall (VK P X : Type) dvk dpf dx (verify : VK -> P -> X -> res bool) load,
  program_entry (main_vector dvk dpf dx verify load) = Some 0 <->
  exists a b c vk pf x, load 0%nat = inl a /\ load 1%nat = inl b /\ load 2%nat = inl c /\ dvk a = Some vk /\ dpf b = Some pf /\ dx c = Some x /\ verify vk pf x = Ok true.
Proof. intros. apply vector_success. Qed.
Print Assumptions C48_success_exact_vector.
Theorem C48_error_codes : forall (VK P X : Type) dvk dpf dx (verify : VK -> P -> list X -> res bool) load,
  let r := program_entry (main_single dvk dpf dx verify load) in
  (forall i e, (i < 3)%nat -> (forall j, (j < i)%nat -> exists b, load j = inl b) -> load i = inr e ->
     r = match e with IndexOutOfBound => Some 1 | ItemMissing => Some 2 | LengthNotEnough _ => Some 3 | Encoding => Some 4 | Unknown _ => None end) /\
  (forall a b c, load 0%nat = inl a -> load 1%nat = inl b -> load 2%nat = inl c ->
     (dvk a = None \/ dpf b = None \/ dx c = None -> r = Some 4) /\
     (forall vk pf x, dvk a = Some vk -> dpf b = Some pf -> dx c = Some x ->
        r = match verify vk pf [x] with Ok true => Some 0 | Panic => None | _ => Some 5 end)).
Proof. intros. apply single_errors. Qed.
Print Assumptions C48_error_codes.
(** No outcome other than acceptance yields code 0. *)
Theorem C48_codes : forall o, program_entry o = Some 0 \/ (exists n, program_entry o = Some n /\ 1 <= n <= 5) \/ program_entry o = None.
Proof. exact entry_codes. Qed.
Print Assumptions C48_codes.
Definition ex_dec (b : bytes) : option Z := match b with [x] => Some x | _ => None end.
Definition ex_ver (vk pf : Z) (xs : list Z) : res bool := match xs with [x] => Ok (Z.eqb (vk + pf) x) | _ => Err MalformedVerifyingKey end.
Definition ex_load (cells : list bytes) : loader := fun i => match nth_error cells i with Some b => inl b | None => inr IndexOutOfBound end.
Example ex_C48 : map (fun cells => program_entry (main_single ex_dec ex_dec ex_dec ex_ver (ex_load cells))) [[[2]; [3]; [5]]; [[2]; [3]; [6]]; [[2]; []; [5]]; [[2]; [3]]] = [Some 0; Some 5; Some 4; Some 1].
Proof. reflexivity. Qed.

(** ** C49 *)
Theorem C49_key_cell_ignored : forall (GS R P X : Type) dpf dx (verify : GS -> P -> R -> list X -> res bool) (l1 l2 : loader) a1 a2,
  l1 0%nat = inl a1 -> l2 0%nat = inl a2 -> (forall i, (0 < i)%nat -> l1 i = l2 i) ->
  main_bulletproofs dpf dx verify l1 = main_bulletproofs dpf dx verify l2.
Proof. intros GS R P X dpf dx verify l1 l2 a1 a2 H1 H2 H. exact (bulletproofs_ignores_key dpf dx verify l1 l2 a1 a2 H1 H2 H). Qed.
Print Assumptions C49_key_cell_ignored.
Theorem C49_success_exact : forall (GS R P X : Type) dpf dx (verify : GS -> P -> R -> list X -> res bool) load,
  program_entry (main_bulletproofs dpf dx verify load) = Some 0 <->
  exists a b c gs r pf x, load 0%nat = inl a /\ load 1%nat = inl b /\ load 2%nat = inl c /\ dpf b = Some (gs, r, pf) /\ dx c = Some x /\ verify gs pf r [x] = Ok true.
Proof. intros. apply bulletproofs_success. Qed.
Print Assumptions C49_success_exact.
(** With the modelled verification: whatever the key cell, the public cell and the circuit, some proof cell carrying that circuit is accepted. *)
Theorem C49_every_statement_accepted : forall (K : Fld) (G : Grp K) (ch : oracle K G)
  (epf : gens K G * r1cs K * bproof K G -> bytes) (dpf : bytes -> option (gens K G * r1cs K * bproof K G)) (dx : bytes -> option K),
  (forall v, dpf (epf v) = Some v) -> (forall t, ch "y"%string t <> f0) ->
  forall (gs : gens K G) (r : r1cs K) (c : bytes) (x : K), (0 < gn K G gs)%nat -> (gN K G gs <= length (h_vec_N K G gs))%nat -> gk K G gs = 2%nat -> dx c = Some x ->
  exists pf, forall a, program_entry (main_bulletproofs dpf dx (bp_verify K G ch) (fun i => match i with O => inl a | S O => inl (epf (gs, r, pf)) | _ => inl c end)) = Some 0.
Proof.
  intros K G ch epf dpf dx ED NZ gs r c x Hn HN Hk Hx. destruct (C34_forgery K G ch gs r [x] Hn HN) as [pf E]; [rewrite Hk; reflexivity|exact NZ|].
  exists pf. intro a. apply bulletproofs_success. exists a, (epf (gs, r, pf)), c, gs, r, pf, x. repeat split; auto.
Qed.
Print Assumptions C49_every_statement_accepted.
Example ex_C49 : main_bulletproofs (fun b => match b with [x; y; z] => Some (x, y, z) | _ => None end) ex_dec (fun gs pf r xs => ex_ver gs pf (map (Z.add r) xs)) (ex_load [[7]; [2; 1; 3]; [4]]) = Done /\
  main_bulletproofs (fun b => match b with [x; y; z] => Some (x, y, z) | _ => None end) ex_dec (fun gs pf r xs => ex_ver gs pf (map (Z.add r) xs)) (ex_load [[8; 9]; [2; 1; 3]; [4]]) = Done.
Proof. split; reflexivity. Qed.

(** ** C57 *)
Theorem C57_key_not_pinned : forall (K : Fld) (PR : Pairing K) (evk : vkey K PR -> bytes) (dvk : bytes -> option (vkey K PR))
  (epf : proof K PR -> bytes) (dpf : bytes -> option (proof K PR)) (dx : bytes -> option K),
  (forall v, dvk (evk v) = Some v) -> (forall p, dpf (epf p) = Some p) ->
  forall (al : G1 PR) (be ga de : G2 PR), exists a b, forall c x, dx c = Some x ->
  program_entry (main_single dvk dpf dx (fun vk => verify_proof K PR (prepare K PR vk)) (fun i => match i with O => inl a | S O => inl b | _ => inl c end)) = Some 0.
Proof.
  intros K PR evk dvk epf dpf dx EV EP al be ga de. exists (evk (mkVK K PR al be ga de [g0; g0])), (epf (mkPrf K PR al be g0)). intros c x Hx.
  apply single_success. do 6 eexists. split; [reflexivity|]. split; [reflexivity|]. split; [reflexivity|]. split; [apply EV|]. split; [apply EP|]. split; [exact Hx|].
  apply (verify_exact K PR). split; [reflexivity|]. cbn [prepare pa pb pc pv_abc gamma_g2_neg delta_g2_neg alpha_g1_beta_g2 alpha_g1 beta_g2 gamma_abc_g1 gamma_g2 delta_g2].
  assert (E0 : forall v : G2 PR, pair_e (g0 : G1 PR) v = g0) by (intro v; rewrite <- (gsm_0 K (G1 PR) g0), pair_sm_l; apply gsm_0).
  assert (E1 : msm [g0 : G1 PR; g0] [f1; x] = g0) by (cbn [msm]; rewrite !gsm_g0, !gadd_0r; reflexivity).
  unfold key_sum. cbn [prepare pv_abc gamma_abc_g1]. rewrite E1, !E0, !gadd_0r. reflexivity.
Qed.
Print Assumptions C57_key_not_pinned.
(** A false statement about a fixed circuit is accepted under a key cell chosen with the proof. *)
Example ex_C57 : forall x : Z, program_entry (main_single ex_dec ex_dec ex_dec (fun vk pf xs => ex_ver vk pf (map (Z.mul vk) xs)) (ex_load [[0]; [0]; [x]])) = Some 0.
Proof. intro x. cbn. reflexivity. Qed.

(** ** C58 *)
Theorem C58_exit_status_blind : forall v, (exists b, v = Ok b /\ verify_main v = Exited 0 (Some b)) \/ ((exists e, v = Err e) \/ v = Panic) /\ verify_main v = Aborted.
Proof. intros [b|e|]; [left; exists b; auto|right; split; [left; eauto|reflexivity]|right; split; [right; reflexivity|reflexivity]]. Qed.
Print Assumptions C58_exit_status_blind.
Example ex_C58 : verify_main (Ok false) = Exited 0 (Some false).
Proof. reflexivity. Qed.
