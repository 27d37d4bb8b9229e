(** Model of asvc/src/lib.rs, the aggregatable sub-vector commitment. No proofs.
    Group elements are elements of arbitrary modules; affine/projective conversions, windowed tables and `into_repr` are
    identities; positions (`u32`) are naturals; polynomials are coefficient vectors, lowest first, without trailing zeros. *)
From Verif Require Import Field Poly Module ModelPC.
Local Open Scope fld_scope.

Section Asvc.
Variable K : Fld.
Variable PR : Pairing K.
(** `EvaluationDomain::new(n)` (ark_poly): a domain with at least n points, or None. *)
Variable dnew : nat -> option (dom K).

(** ark_ff `Div`: multiplication with the unwrapped inverse, which panics on zero (lib.rs:116, 124, 264, 315, 353, 387, 388, 395, 431). *)
Definition rdiv (a b : K) : res K := if feqb b 0 then Panic else Ok (a / b).
(** ark_poly `divide_with_q_and_r` (lib.rs:206) and `Div` (lib.rs:257, 430): quotient and remainder by a divisor [d]
    with nonzero top coefficient; one step per coefficient of the dividend, from the top. *)
Fixpoint pdivl (d p : list K) : list K * list K :=
  match p with
  | [] => ([], repeat 0 (length d - 1))
  | c :: p' =>
      let '(q, r) := pdivl d p' in
      let r1 := c :: r in
      let t := nth (length d - 1) r1 0 * finv (last d 0) in
      (t :: q, firstn (length d - 1) (psub r1 (pscale t d)))
  end.
Definition pquot (p d : list K) : res (list K) :=
  if forallb (fun c => feqb c 0) d then Panic else Ok (ptrim K (fst (pdivl d p))).
(** lib.rs:195-201, 239-246, 415-422: the product of the X - omega^point. *)
Definition lin_poly (omega : K) (pt : nat) : list K := ptrim K [- (omega ^ pt); 1].
Definition root_poly (omega : K) (points : list nat) : list K :=
  fold_left (fun a pt => ptrim K (pmul a (lin_poly omega pt))) points (ptrim K [1]).

(** lib.rs:33-37 `UpdateKey`, 39-44 `ProvingKey`, 46-51 `VerificationKey`. *)
Record upkey := mkUpk { u_ai : G1 PR; u_ui : G1 PR }.
Record svc_pk := mkSPK { pk_g1 : list (G1 PR); pk_l : list (G1 PR); pk_upk : list upkey }.
Record svc_vk := mkSVK { vk_g1 : list (G1 PR); vk_g2 : list (G2 PR); vk_a : G1 PR }.

(** lib.rs:113-141: the body of the loop for position [i]. *)
Definition key_step (d : dom K) (tau : K) (g1 a : G1 PR) (i : nat) : res (upkey * G1 PR) :=
  rbind (rdiv 1 (tau - dgen d ^ i)) (fun dv =>
  let ai := gsm dv a in
  rbind (rdiv (dgen d ^ i) (of_nat (dsize d))) (fun s =>
  let li := gsm s ai in
  let ui := gsm dv (gadd li (gopp g1)) in
  Ok (mkUpk ai ui, li))).
(** lib.rs:76-158 `key_gen`; the random elements are arguments. *)
Definition key_gen (n : nat) (tau : K) (g1 : G1 PR) (g2 : G2 PR) : res (svc_pk * svc_vk) :=
  match dnew n with
  | None => Err PolynomialDegreeTooLarge
  | Some d =>
      let pw1 := map (fun i => gsm (tau ^ i) g1) (seq 0 (S (dsize d))) in
      let pw2 := map (fun i => gsm (tau ^ i) g2) (seq 0 (S (dsize d))) in
      let a := gadd (gsm (tau ^ dsize d) g1) (gopp g1) in
      rbind (mapR (key_step d tau g1 a) (seq 0 (dsize d))) (fun ks =>
      Ok (mkSPK pw1 (map snd ks) (map fst ks), mkSVK pw1 pw2 a))
  end.

(** lib.rs:160-180 `commit`; the two assertions panic. *)
Definition svc_commit (pk : svc_pk) (values : list K) : res (G1 PR) :=
  if Nat.ltb (length values) 1 || Nat.ltb (length (pk_l pk)) (length values) then Panic else Ok (msm (pk_l pk) values).

(** lib.rs:182-225 `prove_pos`; `len() - 1` of an empty key panics; `ifft_in_place` first resizes to the domain size
    ([idft] reads the first [dsize] entries, missing ones as zero). *)
Definition prove_pos (pk : svc_pk) (values : list K) (points : list nat) : res (G1 PR) :=
  if Nat.eqb (length (pk_g1 pk)) 0 then Panic else
  match dnew (length (pk_g1 pk) - 1) with
  | None => Err PolynomialDegreeTooLarge
  | Some d => rbind (pquot (ptrim K (idft d values)) (root_poly (dgen d) points)) (fun q => Ok (msm (pk_g1 pk) q))
  end.

(** lib.rs:251-270: the loop over the zipped points and values. *)
Fixpoint r_loop (omega : K) (A : list K) (l : list (nat * K)) (r : list K) : res (list K) :=
  match l with
  | [] => Ok r
  | (pt, value) :: l' =>
      rbind (pquot A (lin_poly omega pt)) (fun lp =>
      rbind (rdiv value (peval lp (omega ^ pt))) (fun c =>
      r_loop omega A l' (ptrim K (padd r (ptrim K (pmul lp (ptrim K [c])))))))
  end.
(** lib.rs:227-285 `verify_pos`. *)
Definition verify_pos (vk : svc_vk) (c : G1 PR) (values : list K) (points : list nat) (w : G1 PR) (omega : K) : res bool :=
  let A := root_poly omega points in
  rbind (r_loop omega A (combine points values) (ptrim K [0])) (fun r =>
  match vk_g2 vk with
  | [] => Panic
  | h :: _ => Ok (geqb (pair_e (gadd c (gopp (msm (vk_g1 vk) r))) h) (pair_e w (msm (vk_g2 vk) A)))
  end).

(** lib.rs:287-337 `verify_upk`. *)
Definition verify_upk (vk : svc_vk) (pt : nat) (u : upkey) (omega : K) : res bool :=
  match vk_g1 vk, vk_g2 vk with
  | g :: gs, h0 :: h1 :: _ =>
      let inner := gadd h1 (gopp (gsm (omega ^ pt) h0)) in
      let rs1 := geqb (pair_e (u_ai u) inner) (pair_e (vk_a vk) h0) in
      rbind (rdiv (omega ^ pt) (of_nat (length gs))) (fun s =>
      let rs2 := geqb (pair_e (gadd (gsm s (u_ai u)) (gopp g)) h0) (pair_e (u_ui u) inner) in
      Ok (rs1 && rs2))
  | _, _ => Panic
  end.

(** lib.rs:339-363 `update_commit`. *)
Definition update_commit (c : G1 PR) (delta : K) (pt : nat) (u : upkey) (omega : K) (n : nat) : res (G1 PR) :=
  rbind (rdiv (omega ^ pt) (of_nat n)) (fun s => Ok (gadd c (gsm delta (gsm s (u_ai u))))).
(** lib.rs:365-403 `update_proof`. *)
Definition update_proof (w : G1 PR) (delta : K) (i j : nat) (ui uj : upkey) (omega : K) (n : nat) : res (G1 PR) :=
  if Nat.eqb i j then Ok (gadd w (gsm delta (u_ui ui)))
  else
    rbind (rdiv 1 (omega ^ j - omega ^ i)) (fun c1 => rbind (rdiv 1 (omega ^ i - omega ^ j)) (fun c2 =>
    let wij := gadd (gsm c1 (u_ai uj)) (gsm c2 (u_ai ui)) in
    rbind (rdiv (omega ^ j) (of_nat n)) (fun s => Ok (gadd w (gsm delta (gsm s wij)))))).

(** lib.rs:424-433: the loop over the zipped points and proofs. *)
Fixpoint agg_loop (omega : K) (A : list K) (l : list (nat * G1 PR)) (acc : G1 PR) : res (G1 PR) :=
  match l with
  | [] => Ok acc
  | (pt, w) :: l' =>
      rbind (pquot A (lin_poly omega pt)) (fun lp =>
      rbind (rdiv 1 (peval lp (omega ^ pt))) (fun c => agg_loop omega A l' (gadd acc (gsm c w))))
  end.
(** lib.rs:405-439 `aggregate_proofs`. *)
Definition aggregate_proofs (points : list nat) (proofs : list (G1 PR)) (omega : K) : res (G1 PR) :=
  agg_loop omega (root_poly omega points) (combine points proofs) g0.
End Asvc.
Arguments mkUpk {K PR}. Arguments u_ai {K PR}. Arguments u_ui {K PR}.
Arguments mkSPK {K PR}. Arguments pk_g1 {K PR}. Arguments pk_l {K PR}. Arguments pk_upk {K PR}.
Arguments mkSVK {K PR}. Arguments vk_g1 {K PR}. Arguments vk_g2 {K PR}. Arguments vk_a {K PR}.
Arguments rdiv {K}. Arguments pdivl {K}. Arguments pquot {K}. Arguments lin_poly {K}. Arguments root_poly {K}.
Arguments key_gen {K PR}. Arguments key_step {K PR}. Arguments svc_commit {K PR}. Arguments prove_pos {K PR}. Arguments verify_pos {K PR}.
Arguments r_loop {K}. Arguments verify_upk {K PR}. Arguments update_commit {K PR}. Arguments update_proof {K PR}.
Arguments agg_loop {K PR}. Arguments aggregate_proofs {K PR}.
