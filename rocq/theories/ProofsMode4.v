(** Where setup and proving diverge: adding words whose bits are constant but whose value is not known during key generation. *)
From Verif Require Import Field ModelLC ModelCS ModelBoolean ModelUint32 SpecMode ProofsMode ProofsMode2.
Local Open Scope fld_scope.
Lemma setup_bits (K : Fld) A (f : A -> option bool) : forall l (s : cs K), md s = Setup -> exists bs t, mapM (fun i => bit_alloc (f i)) l s = Ok (bs, t) /\ md t = Setup /\ length (auxs t) = (length (auxs s) + length l)%nat /\ length (cons t) = (length (cons s) + length l)%nat.
Proof.
  induction l as [|a l IH]; intros s H; cbn [mapM]; [exists [], s; cbn [length]; repeat split; try assumption; lia|]. unfold bind, bit_alloc, bind, alloc at 1. rewrite H. unfold enforce, ret.
  match goal with |- context [mapM ?g l ?s1] => destruct (IH s1) as (bs & t & E & M & L1 & L2); [reflexivity|] end. cbn [md inps auxs cons] in *. unfold bit_alloc, bind, enforce, ret in E. rewrite E. eexists _, t. split; [reflexivity|]. split; [exact M|]. rewrite L1, L2, !app_length. cbn [length]. lia.
Qed.
Section D.
Variable K : PFld.
(** A word whose lowest bit is the wire [v] and whose other bits are the constants [cs]. *)
Definition low_bit_word (v : var) (x : option bool) (cs : list bool) : res u32 := u32_from_bits (BIs (mkBit v x) :: map BConst cs).
Lemma bits_value_consts cs r : forall z, exists w, bits_value (Some z) (map BConst cs ++ r) = bits_value (Some w) r.
Proof. induction cs as [|c cs IH]; intro z; [exists z; reflexivity|]. cbn [map app bits_value b_value]. apply IH. Qed.
Lemma low_bit_value v x cs : length cs = 31%nat -> exists z, low_bit_word v x cs = Ok (mkU (BIs (mkBit v x) :: map BConst cs) (match x with Some b => Some (Z.lor ((2 * z) mod 2 ^ 32) (Z.b2z b)) | None => None end)).
Proof.
  intro L. unfold low_bit_word, u32_from_bits. cbn [length]. rewrite map_length, L. cbn [Nat.eqb]. cbn [rev]. rewrite <- map_rev. destruct (bits_value_consts (rev cs) [BIs (mkBit v x)] 0) as (w & E). exists w. rewrite E. cbn [bits_value b_value bval]. destruct x; reflexivity.
Qed.
Lemma addmany_diverges v x (ks : list bool) c u u' (s s' : cs K) q : (64 <= modulus_bits K)%Z -> length ks = 31%nat -> low_bit_word v (Some x) ks = Ok u -> low_bit_word v None ks = Ok u' -> md s' = Setup ->
  (exists r, @u32_addmany K [u32_shr u 1; u32_constant c] (s, q) = Ok (r, (s, q))) /\ (exists r t q', @u32_addmany K [u32_shr u' 1; u32_constant c] (s', q) = Ok (r, (t, q')) /\ length (auxs t) = (length (auxs s') + 33)%nat).
Proof.
  intros HK L E E' M. destruct (low_bit_value v (Some x) ks L) as (z & Q). rewrite Q in E. injection E as <-. destruct (low_bit_value v None ks L) as (z' & Q'). rewrite Q' in E'. injection E' as <-.
  assert (forallb b_is_const (map BConst ks ++ repeat (BConst false) 32) = true) as C by (rewrite forallb_app; apply Bool.andb_true_iff; split; [clear; induction ks as [|k0 ks IHk]; [reflexivity|exact IHk]|reflexivity]).
  assert (forall n l, forallb b_is_const l = true -> forallb b_is_const (firstn n l) = true) as Cf. { clear. induction n as [|n IH]; intros [|a l] H; try reflexivity. cbn [firstn forallb] in *. apply Bool.andb_true_iff in H. destruct H as [-> H]. exact (IH l H). }
  assert (forall c, forallb b_is_const (ubits (u32_constant c)) = true) as Cc by (intro c0; apply (uc_const c0)).
  split.
  - unfold u32_addmany. replace (modulus_bits K <? 64)%Z with false by (symmetry; apply Z.ltb_ge; exact HK). cbn [length Nat.ltb Nat.leb]. change (Nat.ltb 10 2) with false. cbn [forallb]. rewrite Cc. replace (forallb b_is_const (ubits (u32_shr _ 1))) with true by (symmetry; unfold u32_shr; cbn [ubits]; apply Cf; exact C).
    cbn [andb fold_left u32_shr uval u32_constant option_map zlift2]. eexists. reflexivity.
  - unfold u32_addmany. replace (modulus_bits K <? 64)%Z with false by (symmetry; apply Z.ltb_ge; exact HK). cbn [length Nat.ltb Nat.leb]. cbn [forallb]. rewrite Cc. replace (forallb b_is_const (ubits (u32_shr _ 1))) with true by (symmetry; unfold u32_shr; cbn [ubits]; apply Cf; exact C).
    cbn [andb fold_left u32_shr uval u32_constant option_map zlift2]. replace (shift_steps 64 (Z.of_nat 2 * (2 ^ 32 - 1))) with 33%nat by (vm_compute; reflexivity). unfold mbind at 1, lift.
    destruct (setup_bits K _ (fun i : nat => None) (seq 0 33) s' M) as (bs & t & -> & Mt & L1 & L2). rewrite seq_length in L1.
    match goal with |- context [lc_add_bits (lc_add_bits ?a ?b ?c) ?d ?e] => set (lhs := lc_add_bits (lc_add_bits a b c) d e) end. set (rhs := lc_add_vars lc_zero 1 (map bvar bs)).
    assert (exists t2 q2, meq_enforce_equal 33 lhs rhs (t, q) = Ok (tt, (t2, q2)) /\ auxs t2 = auxs t) as (t2 & q2 & Em & A).
    { unfold meq_enforce_equal, mbind. cbn [snd]. assert (Z.of_nat 33 < capacity K)%Z as Hc by (unfold capacity; lia). destruct (capacity K <=? Z.of_nat (qbits q + 33))%Z eqn:Ec.
      - unfold meq_accumulate, enforce. cbn [meq_new qbits]. replace (Z.of_nat (0 + 33) <? capacity K)%Z with true by (symmetry; apply Z.ltb_lt; exact Hc). eexists _, _. split; reflexivity.
      - apply Z.leb_gt in Ec. replace (Z.of_nat (qbits q + 33) <? capacity K)%Z with true by (symmetry; apply Z.ltb_lt; exact Ec). eexists _, _. split; reflexivity. }
    unfold mbind, mret. rewrite Em. eexists _, t2, q2. split; [reflexivity|]. rewrite A. exact L1.
Qed.
End D.
