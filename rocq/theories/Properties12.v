(** Theorems C36, C37: the polynomial commitment of Marlin and Plonk. *)
From Coq Require Import String.
From Verif Require Import Field Poly Module Zp Gold ModelPC SpecPC ProofsPC ProofsPC2.
Local Open Scope fld_scope.

(** ** C36 *)
Theorem C36_single_complete : forall (K : Fld) (PR : Pairing K) (beta : K) (g gam : G1 PR) (h : G2 PR) n sd ck vk,
  kzg_trim K PR (kzg_setup K PR n beta g gam h) sd = Ok (ck, vk) -> forall p hb dr z,
  canonical p -> (1 < length p <= S sd)%nat -> match hb with Some b => 1 <= b <= sd | None => True end%nat ->
  exists c r pf, kzg_commit K PR (ck_pw K PR ck) p hb dr = Ok (c, r) /\ kzg_open K PR (ck_pw K PR ck) p z r = Ok pf /\ kzg_check K PR vk c z (peval p z) pf = Ok true.
Proof. exact single_complete. Qed.
Print Assumptions C36_single_complete.
(** Several polynomials, with degree bounds, at one point. *)
Theorem C36_multi_complete : forall (K : Fld) (PR : Pairing K) (beta : K) (g gam : G1 PR) (h : G2 PR) n sd ck vk,
  kzg_trim K PR (kzg_setup K PR n beta g gam h) sd = Ok (ck, vk) -> forall polys cs rs z xi pf,
  Forall (fun x => match lp_hb K (fst x) with Some b => (b <= sd)%nat | None => True end) polys ->
  pc_commit K PR ck polys = Ok (cs, rs) -> pc_open K PR ck (map fst polys) z xi rs = Ok pf ->
  pc_check K PR vk cs z (map (fun q => peval (lp_poly K q) z) (map fst polys)) pf xi = Ok true.
Proof. exact multi_complete. Qed.
Print Assumptions C36_multi_complete.
(** Several polynomials at several points. *)
Theorem C36_batch_complete : forall (K : Fld) (PR : Pairing K) (beta : K) (g gam : G1 PR) (h : G2 PR) n sd ck vk,
  kzg_trim K PR (kzg_setup K PR n beta g gam h) sd = Ok (ck, vk) -> forall polys cs rs qs evs xi pfs,
  Forall (fun x => match lp_hb K (fst x) with Some b => (b <= sd)%nat | None => True end) polys ->
  pc_commit K PR ck polys = Ok (cs, rs) ->
  (forall l z v, value_of K (map fst polys) rs l z = Some v -> (exists ls, In (z, ls) (group K qs) /\ In l ls) -> ev_get K evs l z = Some v) ->
  batch_open K PR ck (map fst polys) qs xi rs = Ok pfs -> batch_check K PR vk cs qs evs pfs xi = Ok true.
Proof. exact batch_complete_setup. Qed.
Print Assumptions C36_batch_complete.
Theorem C36_degree_bound_enforced : forall (K : Fld) (PR : Pairing K) (beta : K) (g gam : G1 PR) (h : G2 PR) n sd ck vk,
  kzg_trim K PR (kzg_setup K PR n beta g gam h) sd = Ok (ck, vk) -> forall p hb dr,
  canonical p -> (S sd < length p)%nat -> kzg_commit K PR (ck_pw K PR ck) p hb dr = Err DegreeOutOfBound.
Proof. exact out_of_bound_rejected. Qed.
Print Assumptions C36_degree_bound_enforced.
(** Finding: constants, although within every degree bound, are refused. *)
Theorem C36_constants_rejected : forall (K : Fld) (PR : Pairing K) pw c hb dr r z,
  kzg_commit K PR pw [c] hb dr = Err DegreeIsZero /\ kzg_commit K PR pw [] hb dr = Err DegreeIsZero /\ kzg_open K PR pw [c] z r = Err DegreeIsZero.
Proof. exact constants_rejected. Qed.
Print Assumptions C36_constants_rejected.
(** Finding: the largest hiding bound that commit accepts yields an opening that check refuses. *)
Theorem C36_largest_hiding_bound : forall (K : Fld) (PR : Pairing K) (beta : K) (g gam : G1 PR) (h : G2 PR) n sd ck vk,
  kzg_trim K PR (kzg_setup K PR n beta g gam h) sd = Ok (ck, vk) -> forall p dr z,
  (forall a b : G1 PR, pair_e a h = pair_e b h -> a = b) -> beta <> 0 -> gam <> g0 -> canonical p -> (1 < length p <= S sd)%nat ->
  length dr = S (S sd) -> last dr 0 <> 0 ->
  exists c r pf, kzg_commit K PR (ck_pw K PR ck) p (Some (S sd)) dr = Ok (c, r) /\ kzg_open K PR (ck_pw K PR ck) p z r = Ok pf /\ kzg_check K PR vk c z (peval p z) pf = Ok false.
Proof. exact hiding_edge_setup. Qed.
Print Assumptions C36_largest_hiding_bound.

Definition exPR : Pairing Fg := self_pairing Fg.
Definition fz (n : Z) : Fg := of_Z n.
Definition ex_trim := kzg_trim Fg exPR (kzg_setup Fg exPR 5 (fz 7) (fz 3) (fz 11) (fz 2)) 4.
Definition ex_polys : list (lpoly Fg * (list Fg * list Fg)) :=
  [(mkLP Fg "a" [fz 1; fz 2; fz 3] (Some 3%nat) (Some 1%nat), ([fz 8; fz 9], [fz 4; fz 6])); (mkLP Fg "b" [fz 0; fz 5] None None, ([], []))]%string.
Definition ok_true (r : res bool) : bool := match r with Ok b => b | _ => false end.
Example ex_C36 : match ex_trim with
  | Ok (ck, vk) =>
      match pc_commit Fg exPR ck ex_polys with
      | Ok (cs, rs) =>
          match pc_open Fg exPR ck (map fst ex_polys) (fz 10) (fz 13) rs with
          | Ok pf => ok_true (pc_check Fg exPR vk cs (fz 10) [fz 321; fz 50] pf (fz 13)) && negb (ok_true (pc_check Fg exPR vk cs (fz 10) [fz 321; fz 51] pf (fz 13)))
          | _ => false
          end &&
          match batch_open Fg exPR ck (map fst ex_polys) [("a", fz 10); ("b", fz 10); ("a", fz 20)]%string (fz 13) rs with
          | Ok pfs => ok_true (batch_check Fg exPR vk cs [("a", fz 10); ("b", fz 10); ("a", fz 20)]%string [("a", fz 10, fz 321); ("b", fz 10, fz 50); ("a", fz 20, fz 1241)]%string pfs (fz 13))
          | _ => false
          end
      | _ => false
      end
  | _ => false
  end = true.
Proof. vm_compute. reflexivity. Qed.
Example ex_C36_canonical : canonical [fz 1; fz 2; fz 3].
Proof. intros _. cbn [last]. apply feqb_neq. vm_compute. reflexivity. Qed.
Add Field Fgf : (f_laws Fg).
Lemma ex_faithful : forall a b : G1 exPR, pair_e a (fz 2 : G2 exPR) = pair_e b (fz 2 : G2 exPR) -> a = b.
Proof.
  intros a b H. change (fmul a (fz 2) = fmul b (fz 2)) in H. assert (N : fz 2 <> 0) by (apply feqb_neq; vm_compute; reflexivity).
  enough (E : forall x : Fg, x = fmul (fmul x (fz 2)) (finv (fz 2))) by (rewrite (E a), (E b), H; reflexivity). intro x. field. exact N.
Qed.

(** ** C37 *)
Theorem C37_binding_relation : forall (K : Fld) (PR : Pairing K) (beta : K) (g gam : G1 PR) (h : G2 PR) n sd ck vk,
  kzg_trim K PR (kzg_setup K PR n beta g gam h) sd = Ok (ck, vk) -> forall c z v1 v2 pf1 pf2,
  (forall a b : G1 PR, pair_e a h = pair_e b h -> a = b) ->
  kzg_check K PR vk c z v1 pf1 = Ok true -> kzg_check K PR vk c z v2 pf2 = Ok true ->
  let rv pf := match k_rand_v K PR pf with Some r => r | None => 0 end in
  ped g gam (v2 - v1) (rv pf2 - rv pf1) = gsm (beta - z) (gadd (k_w K PR pf1) (gopp (k_w K PR pf2))).
Proof. exact binding_setup. Qed.
Print Assumptions C37_binding_relation.
Theorem C37_extract : forall (K : Fld) (PR : Pairing K) (beta : K) (g gam : G1 PR) (h : G2 PR) n sd ck vk,
  kzg_trim K PR (kzg_setup K PR n beta g gam h) sd = Ok (ck, vk) -> forall c z v1 v2 pf1 pf2,
  (forall a b : G1 PR, pair_e a h = pair_e b h -> a = b) ->
  kzg_check K PR vk c z v1 pf1 = Ok true -> kzg_check K PR vk c z v2 pf2 = Ok true -> v1 <> v2 -> beta <> z -> k_rand_v K PR pf1 = k_rand_v K PR pf2 ->
  gsm (finv (beta - z)) g = gsm (finv (v2 - v1)) (gadd (k_w K PR pf1) (gopp (k_w K PR pf2))).
Proof. exact extract_setup. Qed.
Print Assumptions C37_extract.
Theorem C37_one_value_per_proof : forall (K : Fld) (PR : Pairing K) (beta : K) (g gam : G1 PR) (h : G2 PR) n sd ck vk,
  kzg_trim K PR (kzg_setup K PR n beta g gam h) sd = Ok (ck, vk) -> forall c z v1 v2 pf,
  (forall a b : G1 PR, pair_e a h = pair_e b h -> a = b) -> g <> g0 ->
  kzg_check K PR vk c z v1 pf = Ok true -> kzg_check K PR vk c z v2 pf = Ok true -> v1 = v2.
Proof. exact one_value_per_proof. Qed.
Print Assumptions C37_one_value_per_proof.
(** With the trapdoor 7 one commitment opens to two values, by proofs that obey the relation. *)
Example ex_C37 : match ex_trim with
  | Ok (ck, vk) =>
     ok_true (kzg_check Fg exPR vk (fz 30) (fz 5) (fz 4) (mkKP Fg exPR (fz 9) None)) && ok_true (kzg_check Fg exPR vk (fz 30) (fz 5) (fz 6) (mkKP Fg exPR (fz 6) None))
  | _ => false
  end = true.
Proof. vm_compute. reflexivity. Qed.
