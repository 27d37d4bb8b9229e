(** What an accepted run of libra's zero-knowledge verifier shows, given that it can be rewound. *)
From Verif Require Import Field Poly Module ModelTranscript ModelSigma ModelSpartan ModelLibra ModelHyrax ModelLibraZk SpecMle SpecSigma SpecLibra SpecHyrax3 SpecSumcheck SpecRewind.
From Coq Require Import String List.
Import ListNotations.
Local Open Scope string_scope.
Local Open Scope list_scope.
Local Open Scope fld_scope.
Section S.
Variable K : Fld.
Variable G : Grp K.
Notation orc := (oracle K G).
Notation tr := (transcript K G).
(** The further answers given for one layer: those of the rounds of the two phases, of the product proof and of the equality proof. *)
Record zl_rewind := mkZR { zr_one : nat -> se_rewind K G; zr_two : nat -> se_rewind K G; zr_pch : orc; zr_ppf : pproof K G; zr_ech : orc; zr_epf : eproof K G }.
(** They are accepted at the places of the transcript where the verifier [ch] asks for them. *)
Definition zl_rewound (R : zl_rewind) (ch : orc) (p : hparams K G) (c : circuit) (d' : nat) (pf : zlayer K G) (claim : G) (alpha beta : K) (gu gv : list K) (t : tr) : Prop :=
  forall lo hi ru c1 t1 rv c2 t2 t3 add mul, nth_error (c_layers c) d' = Some lo -> nth_error (c_layers c) (S d') = Some hi ->
  let g1 := hp_1 K G p in let g3 := hp_3 K G p in let one := zl_one K G pf in let two := zl_two K G pf in
  let X := zl_x K G pf in let Y := zl_y K G pf in let Z := zl_z K G pf in
  sc_verify K G ch g1 g3 (scp_polys K G one) (scp_evals K G one) (scp_proofs K G one) claim 3 (l_bits lo) t = Ok (ru, c1, t1) ->
  sc_verify K G ch g1 g3 (scp_polys K G two) (scp_evals K G two) (scp_proofs K G two) c1 3 (l_bits lo) (MG "comm_x" X :: t1) = Ok (rv, c2, t2) ->
  product_verify K G ch g1 (zl_prod K G pf) X Y Z (MG "comm_y" Y :: t2) = Ok (true, t3) -> eval_operators K (l_gates hi) gu gv ru rv alpha beta = Ok (add, mul) ->
  sc_rewound (zr_one R) ch g1 g3 (scp_polys K G one) (scp_evals K G one) (scp_proofs K G one) claim 3 (l_bits lo) t /\
  sc_rewound (zr_two R) ch g1 g3 (scp_polys K G two) (scp_evals K G two) (scp_proofs K G two) c1 3 (l_bits lo) (MG "comm_x" X :: t1) /\
  prod_twice ch (zr_pch R) g1 (zl_prod K G pf) (zr_ppf R) X Y Z (MG "comm_y" Y :: t2) /\
  eq_twice ch (zr_ech R) g1 (zl_eq K G pf) (zr_epf R) (gadd (gsm add (gadd X Y)) (gsm mul Z)) c2 t3.
(** The same for all layers, [R d'] for the step from layer d' + 1 to layer d'. *)
Fixpoint z_rewound (R : nat -> zl_rewind) (ch : orc) (p : hparams K G) (c : circuit) (pfs : list (zlayer K G)) (d : nat) (claim : G) (alpha beta : K) (gu gv : list K) (t : tr) : Prop :=
  match d, pfs with
  | S d', pf :: pfs => zl_rewound (R d') ch p c d' pf claim alpha beta gu gv t /\
      forall ru rv t1, z_check_layer K G ch p c d' pf claim alpha beta gu gv t = Ok (ru, rv, t1) ->
      let al := ch "challenge_alpha" t1 in let be := ch "challenge_beta" (MCh "challenge_alpha" :: t1) in
      z_rewound R ch p c pfs d' (gadd (gsm al (zl_x K G pf)) (gsm be (zl_y K G pf))) al be ru rv (MCh "challenge_beta" :: MCh "challenge_alpha" :: t1)
  | _, _ => True
  end.

(** What is extracted from one layer: round polynomials and their blinds, the values x and y with their blinds; and the points and weights of the run. *)
Record ext := mkExt { x_gu : list K; x_gv : list K; x_al : K; x_be : K; x_ru : list K; x_rv : list K; x_one : list (list K); x_b1 : list K; x_two : list (list K); x_b2 : list K;
  x_x : K; x_bx : K; x_y : K; x_by : K }.
(** The extracted values open the commitments of the proof. *)
Definition ext_opens (p : hparams K G) (bits : nat) (pf : zlayer K G) (e : ext) : Prop :=
  let g := hd g0 (mc_gens K G (hp_1 K G p)) in let h := mc_h K G (hp_1 K G p) in
  polys_open (hp_3 K G p) bits (scp_polys K G (zl_one K G pf)) (x_one e) (x_b1 e) /\ polys_open (hp_3 K G p) bits (scp_polys K G (zl_two K G pf)) (x_two e) (x_b2 e) /\
  opens g h (zl_x K G pf) (x_x e) (x_bx e) /\ opens g h (zl_y K G pf) (x_y e) (x_by e).
(** [es] belongs to the run of the verifier, top layer first. *)
Fixpoint follows (ch : orc) (p : hparams K G) (c : circuit) (pfs : list (zlayer K G)) (d : nat) (claim : G) (alpha beta : K) (gu gv : list K) (t : tr) (es : list ext) : Prop :=
  match d, pfs, es with
  | O, _, [] => True
  | S d', pf :: pfs, e :: es =>
      x_gu e = gu /\ x_gv e = gv /\ x_al e = alpha /\ x_be e = beta /\ (exists lo, nth_error (c_layers c) d' = Some lo /\ ext_opens p (l_bits lo) pf e) /\
      exists t1, z_check_layer K G ch p c d' pf claim alpha beta gu gv t = Ok (x_ru e, x_rv e, t1) /\
      let al := ch "challenge_alpha" t1 in let be := ch "challenge_beta" (MCh "challenge_alpha" :: t1) in
      follows ch p c pfs d' (gadd (gsm al (zl_x K G pf)) (gsm be (zl_y K G pf))) al be (x_ru e) (x_rv e) (MCh "challenge_beta" :: MCh "challenge_alpha" :: t1) es
  | _, _, _ => False
  end.
(** The values are wrong but the next weights make up for it. *)
Definition mixed (v : list K) (e : ext) (al be : K) : Prop :=
  (x_x e <> mle v (x_ru e) \/ x_y e <> mle v (x_rv e)) /\ al * x_x e + be * x_y e = al * mle v (x_ru e) + be * mle v (x_rv e).
(** The challenges that a cheating prover hopes for, in the step from layer i + 1 to layer i, whose values are those of the circuit on [inp]:
    a round challenge is a zero of a nonzero polynomial with at most three coefficients fixed before it, or the weights drawn after x and y fit. *)
Definition unlucky (c : circuit) (raw : list raw_layer) (inp : list K) (es : list ext) : Prop :=
  exists j i e lo hi, (j + S i = length es)%nat /\ nth_error es j = Some e /\ nth_error (c_layers c) i = Some lo /\ nth_error (c_layers c) (S i) = Some hi /\
  let v := sem inp (firstn i raw) in
  (bad_challenge 2 (2 * l_bits lo) (layer_poly 0 (l_bits lo) [v] [] (x_gu e) (x_gv e) (x_al e) (x_be e) (l_gates hi)) (x_one e ++ x_two e) (x_ru e ++ x_rv e) \/
   exists e', nth_error es (S j) = Some e' /\ mixed v e (x_al e') (x_be e')).
End S.
Arguments zl_rewound {K G}. Arguments z_rewound {K G}. Arguments ext_opens {K G}. Arguments follows {K G}. Arguments mixed {K}. Arguments unlucky {K}.
