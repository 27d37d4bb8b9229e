(** Vocabulary for Marlin over the scalar field of BLS12-381. *)
From Verif Require Import Zp Bls ModelDomain ModelMarlin.
Local Open Scope fld_scope.
(** The challenges alpha and beta lie outside the domains, which ahp/verifier.rs enforces by `sample_element_outside_domain`. *)
Definition outside {PR : Pairing Fbls} (ro : fs Fbls PR) : Prop :=
  forall m d tr, bls_domain m = Some d -> v_alpha Fbls (fs_msg Fbls PR ro d tr) ^ dsize d <> 1 /\ fs_beta Fbls PR ro d tr ^ dsize d <> 1.
