(** The SHA-256 Merkle example circuit: shapes, trees, Groth16. *)
From Verif Require Import Field Poly Module ModelLC SpecLC ProofsLC ModelCS SpecCS ProofsCS ModelBoolean SpecBoolean ModelUint32 SpecUint32 ModelOperator SpecOperator ModelCbmt SpecCbmt ProofsCbmt ModelSha256 SpecSha256 ProofsSha256 ProofsChunks ProofsShaKnown ModelGroth16 SpecGroth16 ProofsGroth16 ProofsCliMain5 SpecMode ProofsMode ProofsMode3 ModelMerkleDemo SpecMerkleDemo ProofsMerkleDemo ProofsMerkleDemo2 ProofsMerkleSha.
Local Open Scope fld_scope.

Section S.
Variable K : PFld.
Add Field Kf : (f_laws K).
Hypothesis K64 : (64 <= modulus_bits K)%Z.
Implicit Types (s : cs K) (x : var -> K).
Local Notation ob := (ProofsSha256.of_bool K).
(** ** Key generation and proving build the same system *)
Lemma fits_yields {A} (R : A -> A -> Prop) (P : A -> Prop) (m m' : M K A) : fits R m m' -> yields m' P -> fits (fun a b => R a b /\ P b) m m'.
Proof. intros F Y s s' S M a t E. destruct (F s s' S M a t E) as (a' & t' & E' & Ra & S' & M'). exists a', t'. split; [exact E'|]. split; [split; [exact Ra|exact (Y _ _ _ E')]|]. auto. Qed.
Definition same_out (a b : sha_out) : Prop := so_vars a = so_vars b /\ exists ds ds', so_value a = Some ds /\ so_value b = Some ds' /\ Forall2 same_wire ds ds' /\ Forall bknown ds'.
Lemma bits_out bits bits' : Forall2 same_bit bits bits' -> Forall (fun b => bval b <> None) bits' -> same_out (mkSO (Some (map BIs bits)) (map bvar bits)) (mkSO (Some (map BIs bits')) (map bvar bits')).
Proof.
  intros F Kn. split; cbn [so_vars so_value].
  - clear Kn. induction F as [|a b l l' H _ IH]; cbn [map]; [reflexivity|]. unfold same_bit in H. congruence.
  - exists (map BIs bits), (map BIs bits'). do 2 (split; [reflexivity|]). split; [clear Kn; induction F as [|a b l l' H _ IH]; cbn [map]; constructor; auto|]. apply Forall_map. exact Kn.
Qed.
Lemma fits_so_alloc b b' : length b = length b' -> fits same_out (so_alloc (K := K) b) (so_alloc b').
Proof.
  intro L. unfold so_alloc. eapply fits_bind.
  - apply fits_yields; [apply (fits_mapM K _ _ any same_bit); [intros v v' _; apply fits_bit_alloc|apply Forall2_any; rewrite !bits_len, L; reflexivity]|].
    apply y_mapM, Forall_forall. intros v _. apply y_bit_alloc. discriminate.
  - intros bits bits' [F Kn]. apply fits_ret. apply bits_out; assumption.
Qed.
Lemma y_bit_alloc_input o : o <> None -> yields (@bit_alloc_input K o) (fun b => bval b <> None).
Proof. intro H. unfold bit_alloc_input. eapply y_bind; [apply y_true|]. intros v _. eapply y_bind; [apply y_true|]. intros _ _. apply y_ret. exact H. Qed.
Lemma fits_so_alloc_input b b' : length b = length b' -> fits same_out (so_alloc_input (K := K) b) (so_alloc_input b').
Proof.
  intro L. unfold so_alloc_input. eapply fits_bind.
  - apply fits_yields; [apply (fits_mapM K _ _ any same_bit); [intros v v' _; apply fits_bit_alloc_input|apply Forall2_any; rewrite !bits_len, L; reflexivity]|].
    apply y_mapM, Forall_forall. intros v _. apply y_bit_alloc_input. discriminate.
  - intros bits bits' [F Kn]. apply fits_ret. apply bits_out; assumption.
Qed.
Lemma so_values_fits a b vs : same_out a b -> @so_values K a = Ok vs -> exists vs', @so_values K b = Ok vs' /\ length vs = length vs'.
Proof.
  intros (_ & ds & ds' & Va & Vb & F & Kn). unfold so_values. rewrite Va, Vb. clear Va Vb. revert vs. induction F as [|d d' ds ds' _ _ IH]; intros vs E; cbn [res_map] in *; [exists []; injection E as <-; auto|].
  apply Forall_cons_iff in Kn as [Kd Kn]. destruct (match b_value d with Some true => Ok 1 | Some false => Ok 0 | None => Panic end) as [y| |]; cbn [rbind] in E; try discriminate. destruct (res_map _ ds) as [r| |]; cbn [rbind] in E; try discriminate. injection E as <-.
  destruct (IH Kn r eq_refl) as (r' & E' & L'). unfold bknown in Kd. destruct (b_value d') as [[|]|]; [| |congruence]; cbn [rbind]; rewrite E'; cbn [rbind]; eexists; (split; [reflexivity|cbn; lia]).
Qed.
Lemma fits_hash_sha a a' b b' : same_out a a' -> same_out b b' -> fits same_out (@sha_hash_enforce K [a; b]) (sha_hash_enforce [a'; b']).
Proof.
  intros (_ & da & da' & Va & Va' & Fa & Ka) (_ & db & db' & Vb & Vb' & Fb & Kb). unfold sha_hash_enforce.
  rewrite (so_inputs_ok [a; b] [da; db]) by (cbn [map]; rewrite Va, Vb; reflexivity). rewrite (so_inputs_ok [a'; b'] [da'; db']) by (cbn [map]; rewrite Va', Vb'; reflexivity). cbn [concat]. rewrite !app_nil_r.
  eapply (fits_bind K _ _ (fun l l' => l = da ++ db /\ l' = da' ++ db')).
  { apply fits_lift_res'. intros l E. injection E as <-. eexists. split; [reflexivity|]. auto. }
  intros l l' [-> ->]. eapply fits_bind.
  { apply fits_yields; [apply fits_sha256; apply Forall2_app; assumption|apply y_sha256, Forall_app; auto]. }
  intros ds ds' [Fd Kd]. eapply (fits_bind K _ _ (Forall2 eq)).
  { apply (fits_mapM K _ _ same_wire eq); [|exact Fd]. intros d d' _. eapply fits_bind; [apply fits_unwrap, fits_bit_alloc|]. intros v v' Hv. apply fits_ret. exact Hv. }
  intros vs vs' Fv. apply Forall2_eq_eq in Fv as <-. apply fits_ret. split; [reflexivity|]. exists ds, ds'. auto.
Qed.
Lemma fits_select vl pv : forall sv iv, fits any (@select_vars K vl pv sv iv) (select_vars vl pv sv iv).
Proof.
  induction pv as [|p pv IH]; intros sv iv; cbn [select_vars]; [apply fits_ret; exact I|]. destruct sv as [|w sv]; [apply fits_ret; exact I|]. destruct iv as [|i iv]; [apply fits_panic|].
  eapply fits_bind; [apply fits_enforce|]. intros _ _ _. apply IH.
Qed.
Lemma fits_sha_step i a a' b b' : same_out a a' -> same_out b b' -> fits same_out (@sha_member_step K i a b) (sha_member_step i a' b').
Proof.
  intros Ha Hb. unfold sha_member_step. eapply (fits_bind K _ _ (fun l l' => length l = length l')).
  { apply fits_lift_res'. intros vs E. exact (so_values_fits a a' vs Ha E). }
  intros pv pv' Lp. eapply (fits_bind K _ _ (fun l l' => length l = length l')).
  { apply fits_lift_res'. intros vs E. exact (so_values_fits b b' vs Hb E). }
  intros sv sv' Ls. eapply fits_bind; [apply fits_alloc|]. intros vl ? <-. eapply (fits_bind K _ _ eq).
  { apply fits_allocs. destruct (is_left i); assumption. }
  intros iv ? <-. destruct (proj1 Ha), (proj1 Hb). eapply fits_bind; [apply fits_select|]. intros _ _ _. destruct (is_left i); apply fits_hash_sha; assumption.
Qed.
Lemma fits_sha_loop ls : forall ls' i a a', same_out a a' -> Forall2 same_out ls ls' -> fits same_out (@sha_member_loop K i a ls) (sha_member_loop i a' ls').
Proof.
  induction ls as [|b ls IH]; intros ls' i a a' Ha F; inversion F as [|? b' ? ls2 Hb F']; subst; cbn [sha_member_loop]; [apply fits_ret; exact Ha|].
  eapply fits_bind; [apply fits_sha_step; eassumption|]. intros o o' Ho. apply IH; assumption.
Qed.
Lemma fits_equal pv : forall rv, fits any (@equal_vars K pv rv) (equal_vars pv rv).
Proof. induction pv as [|p pv IH]; intros rv; cbn [equal_vars]; [apply fits_ret; exact I|]. destruct rv as [|r rv]; [apply fits_ret; exact I|]. eapply fits_bind; [apply fits_enforce|]. intros _ _ _. apply IH. Qed.
Lemma fits_merkle_sha p p' root root' leaf leaf' : mp_index p = mp_index p' -> map (@length Z) (mp_lemmas p) = map (@length Z) (mp_lemmas p') -> length root = length root' -> length leaf = length leaf' ->
  fits any (merkle_sha (K := K) (Some p) (Some root) (Some leaf)) (merkle_sha (Some p') (Some root') (Some leaf')).
Proof.
  intros Ei El Lr Ll. unfold merkle_sha. eapply fits_bind; [apply fits_unwrap, fits_so_alloc_input, Lr|]. intros vr vr' [Vr _]. eapply fits_bind; [apply fits_unwrap, fits_so_alloc, Ll|]. intros vl vl' Hl.
  eapply fits_bind.
  { apply (fits_mapM K _ _ (fun a b => length a = length b) same_out); [intros v v' L; apply fits_unwrap, fits_so_alloc, L|].
    revert El. generalize (mp_lemmas p) (mp_lemmas p'). induction l as [|a l IH]; intros [|b l'] E; try discriminate; constructor; [injection E as E _; exact E|apply IH; injection E as _ E; exact E]. }
  intros ls ls' F. apply fits_unwrap. unfold sha_set_membership. rewrite Ei. eapply fits_bind; [apply fits_sha_loop; eassumption|]. intros o o' [Vo _]. rewrite Vr, Vo. apply fits_equal.
Qed.
Theorem sha_same p p' root root' leaf leaf' : mp_index p = mp_index p' -> map (@length Z) (mp_lemmas p) = map (@length Z) (mp_lemmas p') -> length root = length root' -> length leaf = length leaf' ->
  exists s s', merkle_sha (K := K) (Some p) (Some root) (Some leaf) (cs_new Prove) = Ok (tt, s) /\ merkle_sha (Some p') (Some root') (Some leaf') (cs_new Setup) = Ok (tt, s') /\ SpecMode.same_shape s s'.
Proof.
  intros A B C D. destruct (merkle_sha_run K K64 Prove p root leaf) as (spre & vr & o & ds & s & E & _).
  destruct (fits_merkle_sha p p' root root' leaf leaf' A B C D (cs_new Prove) (cs_new Setup)) with (a := tt) (t := s) as ([] & s' & E' & _ & S & _); [repeat split|reflexivity|exact E|]. exists s, s'. auto.
Qed.

(** ** The prover's run *)
Lemma zip_firstn x a : forall b, zip_eq K x a b <-> firstn (length b) (map x a) = firstn (length a) (map x b).
Proof.
  unfold zip_eq. induction a as [|p a IH]; intros [|r b]; cbn [combine map length firstn]; try (split; [reflexivity|constructor]). rewrite Forall_cons_iff, IH. cbn [fst snd]. split; [intros [-> ->]; reflexivity|intro E; injection E; auto].
Qed.
Lemma ob_inj a b : ob a = ob b -> a = b.
Proof. unfold ProofsSha256.of_bool. destruct a, b; intro E; auto; exfalso; [|symmetry in E]; exact (f_1_neq_0 K E). Qed.
Lemma map_ob_inj l : forall l', map ob l = map ob l' -> l = l'.
Proof. induction l as [|a l IH]; intros [|b l'] E; try discriminate; [reflexivity|]. cbn [map] in E. assert (E1 : ob a = ob b) by congruence. assert (E2 : map ob l = map ob l') by congruence. f_equal; [apply ob_inj, E1|apply IH, E2]. Qed.
Lemma sat_wit_ext s t : ext s t -> wf s -> wf t -> (sat (wit t) s <-> self_sat s).
Proof.
  intros X Ws Wt. pose proof (proj2 Ws) as C. split; intros [O H]; (split; [apply wit_one; assumption|]); rewrite Forall_forall in *; intros c Ic; specialize (H c Ic); destruct (C c Ic) as (C1 & C2 & C3); unfold holds in *.
  - rewrite <- !(eval_wit_ext K s t) by assumption. exact H.
  - rewrite !(eval_wit_ext K s t) by assumption. exact H.
Qed.
Theorem sha_run p root leaf : let v := fold_path join (bits_of_bytes leaf) (mp_index p) (map bits_of_bytes (mp_lemmas p)) in
  length v = (if mp_lemmas p then 8 * length leaf else 256)%nat /\
  exists s, merkle_sha (K := K) (Some p) (Some root) (Some leaf) (cs_new Prove) = Ok (tt, s) /\ wf s /\ inps s = 1 :: map ob (bits_of_bytes root) /\
    (self_sat s <-> firstn (8 * length root) v = firstn (length v) (bits_of_bytes root)).
Proof.
  cbv zeta. destruct (merkle_sha_run K K64 Prove p root leaf) as (spre & vr & o & ds & s & E & _ & X & W & Em & I & Or & _ & Oo & L1 & L2 & P & _ & Ein & Sx & _). rewrite <- (P eq_refl). split.
  { destruct (mp_lemmas p) as [|w l]; [rewrite L2, bits_len by reflexivity; reflexivity|apply L1; discriminate]. }
  exists s. split; [exact E|]. split; [exact W|]. split; [apply Ein; reflexivity|]. unfold self_sat. rewrite (Sx (wit s)), (sat_wit_ext _ _ X (proj1 I) W), zip_firstn.
  destruct Or as (dr & _ & _ & _ & Lr1 & Lr & Ar & Pr). destruct Oo as (d4 & _ & _ & _ & Lo1 & Lo & Ao & Po). destruct (Pr Em) as [_ Mr]. destruct (Po Em) as [_ Mo].
  assert (Er : map (wit s) (so_vars vr) = map ob (bits_of_bytes root)) by (rewrite <- Mr; apply map_ext_in; intros v Iv; apply wit_ext; [exact X|rewrite Forall_forall in Ar; auto]).
  assert (Eo : map (wit s) (so_vars o) = map ob ds) by (rewrite <- Mo; apply map_ext_in; intros v Iv; apply wit_ext; [exact X|rewrite Forall_forall in Ao; auto]).
  rewrite Er, Eo, Lr, Lo, bits_len, !firstn_map. split; [intros [_ Q]; apply map_ob_inj, Q|]. intro Q. split; [apply (proj2 I), Em|]. rewrite Q. reflexivity.
Qed.
(** Every root can be claimed. *)
Theorem sha_any p root leaf s' : mp_lemmas p <> [] -> merkle_sha (K := K) (Some p) (Some root) (Some leaf) (cs_new Setup) = Ok (tt, s') -> forall y, length y = length root ->
  wf s' /\ exists x, sat x s' /\ map (fun i => x (Input i)) (seq 1 (length (inps s') - 1)) = map ob (bits_of_bytes y).
Proof.
  intros NE E' y Ly. destruct (merkle_sha_run K K64 Setup p root leaf) as (spre' & vr' & o' & ds' & s2 & E2 & _ & _ & W2 & _ & _ & _ & _ & _ & _ & _ & _ & L2 & _). rewrite E' in E2. injection E2 as <-. split; [exact W2|].
  destruct (sha_same p p y root leaf leaf eq_refl eq_refl Ly eq_refl) as (s & s'' & E & E'' & S1 & S2 & S3). rewrite E' in E''. injection E'' as <-.
  destruct (merkle_sha_run K K64 Prove p y leaf) as (spre & vr & o & ds & s0 & E0 & _ & X & W & Em & I & Or & Vr & Oo & L1 & _ & P & Li & Ein & Sx & Fr). rewrite E in E0. injection E0 as <-.
  set (ts := firstn 256 (bits_of_bytes y ++ repeat false 256)). assert (Lt : length ts = 256%nat) by (subst ts; rewrite firstn_length, app_length, repeat_length; lia).
  destruct (Fr NE (wit spre) ts (proj2 I Em) Lt) as (x & Hx & Hi & Hv). exists x.
  assert (Mr : map x (so_vars vr) = map ob (bits_of_bytes y)).
  { destruct Or as (dr & _ & _ & _ & _ & _ & _ & Pr). destruct (Pr Em) as [_ Mr]. rewrite <- Mr, Vr, !map_map. apply map_ext_in. intros i Ii. apply in_seq in Ii. apply Hi. lia. }
  assert (Sat : sat x s).
  { apply Sx. split; [exact Hx|]. apply zip_firstn. rewrite Hv, Mr. assert (Lo : length (so_vars o) = 256%nat) by (rewrite <- Lt, <- (map_length ob ts), <- Hv, map_length; reflexivity).
    rewrite Lo, Vr, map_length, seq_length, !firstn_map. f_equal. rewrite <- bits_len. subst ts. rewrite firstn_firstn. set (b := bits_of_bytes y). destruct (Nat.le_ge_cases (length b) 256) as [Q|Q].
    - rewrite Nat.min_l by lia. rewrite firstn_app, Nat.sub_diag, firstn_O, app_nil_r, firstn_all, firstn_all2 by lia. reflexivity.
    - rewrite Nat.min_r by lia. rewrite firstn_app. replace (256 - length b)%nat with 0%nat by lia. rewrite firstn_O, app_nil_r. reflexivity. }
  split; [destruct Sat as [O F]; split; [exact O|rewrite <- S3; exact F]|]. rewrite L2, <- Mr, Vr, map_map, Ly. replace (S (8 * length root) - 1)%nat with (8 * length root)%nat by lia. reflexivity.
Qed.
End S.

(** ** Groth16 *)
Section G.
Variable K : PFld.
Variable PR : Pairing K.
Variable dnew : nat -> option (dom K).
Hypothesis DF : dom_family dnew.
Hypothesis K64 : (64 <= modulus_bits K)%Z.
Local Notation ob := (ProofsSha256.of_bool K).
Theorem sha_groth p p' root root' leaf leaf' al be ga de t h1 h2 pp r s : mp_index p = mp_index p' -> map (@length Z) (mp_lemmas p) = map (@length Z) (mp_lemmas p') -> length root = length root' -> length leaf = length leaf' ->
  fold_path join (bits_of_bytes leaf) (mp_index p) (map bits_of_bytes (mp_lemmas p)) = bits_of_bytes root ->
  generate_parameters K PR dnew (merkle_sha (Some p') (Some root') (Some leaf')) al be ga de t h1 h2 = Ok pp ->
  exists pf, create_proof K PR dnew pp (merkle_sha (Some p) (Some root) (Some leaf)) r s = Ok pf /\ verify_proof K PR (prepare K PR (pvk K PR pp)) pf (map ob (bits_of_bytes root)) = Ok true.
Proof.
  intros A B C D F Gp. destruct (sha_same K K64 p p' root root' leaf leaf' A B C D) as (s2 & s1 & E2 & E1 & S1 & S2 & S3). destruct (sha_run K K64 p root leaf) as (_ & s2' & E2' & W & I & Sat). rewrite E2 in E2'. injection E2' as <-.
  destruct (groth_core K PR dnew DF _ (merkle_sha (Some p) (Some root) (Some leaf)) s1 s2 al be ga de t h1 h2 pp r s E1 E2) as (pf & Cp & V); try assumption; [repeat split; auto|apply Sat; rewrite F, <- (bits_len root); reflexivity|]. rewrite I in V. exists pf. auto.
Qed.
Theorem sha_any_root p' root' leaf' al be ga de t h1 h2 pp : mp_lemmas p' <> [] ->
  generate_parameters K PR dnew (merkle_sha (Some p') (Some root') (Some leaf')) al be ga de t h1 h2 = Ok pp ->
  forall y, length y = length root' -> exists pf, verify_proof K PR (prepare K PR (pvk K PR pp)) pf (map ob (bits_of_bytes y)) = Ok true.
Proof.
  intros NE Gp y Ly. destruct (sha_same K K64 p' p' y root' leaf' leaf' eq_refl eq_refl Ly eq_refl) as (_ & s1 & _ & E1 & _). destruct (sha_any K K64 p' root' leaf' s1 NE E1 y Ly) as (W & x & Sx & V).
  destruct (assignment_proves K PR dnew DF _ s1 al be ga de t h1 h2 pp x E1 W Sx Gp) as (pf & Vf). exists pf. rewrite V in Vf. exact Vf.
Qed.
End G.

(** ** Trees of byte strings *)
Section T.
Lemma bits_bytes l : bits_of_bytes l = bytes_bits l. Proof. reflexivity. Qed.
Lemma bytes_app l r : bytes_bits (l ++ r) = bytes_bits l ++ bytes_bits r. Proof. apply flat_map_app. Qed.
Lemma be8 g : length g = 8%nat -> be_bits 8 (Z_be g) = g.
Proof. intro L. do 8 (destruct g as [|? g]; [discriminate|]). destruct g; [|discriminate]. repeat match goal with b : bool |- _ => destruct b end; reflexivity. Qed.
Lemma bytes_groups n : forall l, length l = (n * 8)%nat -> bytes_bits (map Z_be (groups 8 l)) = l.
Proof.
  induction n as [|n IH]; intros l L; [destruct l; [reflexivity|discriminate]|]. rewrite groups_cons by (first [lia|intros ->; discriminate]). cbn [map]. unfold bytes_bits in *. cbn [flat_map]. rewrite be8 by (rewrite firstn_length; lia). rewrite IH by (rewrite skipn_length; lia). apply firstn_skipn.
Qed.
Lemma compress_len h w : length h = 8%nat -> length (compress h w) = 8%nat.
Proof. intro L. do 8 (destruct h as [|? h]; [discriminate|]). destruct h; [|discriminate]. unfold compress. destruct (fold_left round256 _ _) as [[[[[[[? ?] ?] ?] ?] ?] ?] ?]. reflexivity. Qed.
Lemma sha_len m : length (sha256_spec m) = 256%nat.
Proof.
  unfold sha256_spec. generalize (groups 512 (sha_pad m)). intro bl. assert (G : forall h, length h = 8%nat -> length (fold_left (fun h b => compress h (map Z_be (groups 32 b))) bl h) = 8%nat).
  { induction bl as [|b bl IH]; intros h L; cbn [fold_left]; [exact L|]. apply IH, compress_len, L. }
  specialize (G H256 eq_refl). revert G. generalize (fold_left (fun h b => compress h (map Z_be (groups 32 b))) bl H256). intros l L. do 8 (destruct l as [|? l]; [discriminate|]). destruct l; [reflexivity|discriminate].
Qed.
Local Notation merge := sha_merge.
Lemma MS : forall l r, bits_of_bytes (merge l r) = sha256_spec (bits_of_bytes l ++ bits_of_bytes r).
Proof. intros l r. rewrite !bits_bytes, <- bytes_app. unfold sha_merge. apply (bytes_groups 32). apply sha_len. Qed.
Lemma fold_bits ls : forall v i, bits_of_bytes (fold_path merge v i ls) = fold_path join (bits_of_bytes v) i (map bits_of_bytes ls).
Proof. induction ls as [|w ls IH]; intros v i; cbn [fold_path map]; [reflexivity|]. rewrite IH. f_equal. destruct (is_left i); apply MS. Qed.
Theorem sha_tree dflt checks (leaves : list (list Z)) j leaf : (Z.of_nat (length leaves) <= 2 ^ 31 - 1)%Z -> nth_error leaves j = Some leaf ->
  exists m r, build_merkle_proof dflt merge checks leaves (Z.of_nat j) = Ok (Some m) /\ build_merkle_root dflt merge leaves = Ok r /\ (0 <= mp_index m)%Z /\
    fold_path join (bits_of_bytes leaf) (mp_index m) (map bits_of_bytes (mp_lemmas m)) = bits_of_bytes r.
Proof.
  intros HL E. set (eqb := fun a b : list Z => if list_eq_dec Z.eq_dec a b then true else false).
  assert (Q : forall a b, reflect (a = b) (eqb a b)) by (intros a b; unfold eqb; destruct (list_eq_dec Z.eq_dec a b); constructor; assumption).
  destruct (proof_complete dflt merge eqb Q checks leaves j leaf HL E) as (m & r & Em & Er & V). exists m, r. split; [exact Em|]. split; [exact Er|].
  assert (j < length leaves)%nat as Hj by (apply nth_error_Some; congruence). split; [destruct (path_length dflt merge checks leaves j m HL Hj Em) as [-> _]; lia|].
  rewrite <- fold_bits. f_equal. unfold mp_verify, mp_root in V. destruct ((mp_index m =? 0)%Z && negb (Nat.eqb (length (mp_lemmas m)) 0)); [discriminate|]. destruct (Q (fold_path merge leaf (mp_index m) (mp_lemmas m)) r) as [R|]; [exact R|discriminate].
Qed.
End T.
Theorem sha_missing {K : PFld} (po : option (mproof (list Z))) root leaf (s : cs K) : po = None \/ root = None \/ leaf = None -> merkle_sha po root leaf s = Panic.
Proof.
  intro H. unfold merkle_sha. destruct root as [root|]; [|reflexivity]. unfold bind at 1. destruct (unwrapM (so_alloc_input root) s) as [[vr s1]|e|] eqn:E1; [|exfalso; revert E1; unfold unwrapM; destruct (so_alloc_input root s) as [[? ?]| |]; discriminate|reflexivity].
  destruct leaf as [leaf|]; [|reflexivity]. unfold bind at 1. destruct (unwrapM (so_alloc leaf) s1) as [[vl s2]|e|] eqn:E2; [|exfalso; revert E2; unfold unwrapM; destruct (so_alloc leaf s1) as [[? ?]| |]; discriminate|reflexivity].
  destruct po; [|reflexivity]. destruct H as [H|[H|H]]; discriminate.
Qed.
