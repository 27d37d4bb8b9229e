(** Rewinding the verifiers of spartan and libra: which further accepted answers an extractor is given, and what it may find instead. *)
From Verif Require Import Field Poly Module ModelTranscript ModelSigma ModelSpartan SpecSigma.
From Coq Require Import String List.
Import ListNotations.
Local Open Scope string_scope.
Local Open Scope list_scope.
Local Open Scope fld_scope.
Section S.
Variable K : Fld.
Variable G : Grp K.
Notation orc := (oracle K G).
Notation tr := (transcript K G).
(** A linear relation between generators, with its coefficients: what nobody should be able to compute. *)
Definition relation (gs : list G) (h : G) : Type := {v : list K & {b : K | (exists j, (j < length gs)%nat /\ nth j v 0 <> 0) /\ opens_vec gs h g0 v b}}.

(** The weights of a sum-check round, and the transcript at its last challenge. *)
Definition se_w0 (ch : orc) (t : tr) : K := ch "combine_two_claims_to_one" t.
Definition se_w1 (ch : orc) (t : tr) : K := ch "combine_two_claims_to_one" (MCh "combine_two_claims_to_one" :: t).
Definition se_point (ch : orc) (CP CE CC : G) (pf : seproof K G) (t : tr) : tr :=
  MG "beta" (se_dot _ _ pf) :: MG "delta" (se_d _ _ pf) :: MG "Cy" (gadd (gsm (se_w0 ch t) CC) (gsm (se_w1 ch t) CE)) :: MG "Cx" CP ::
  MCh "combine_two_claims_to_one" :: MCh "combine_two_claims_to_one" :: t.
(** One first message, two last challenges, two accepted answers. *)
Definition se_twice (ch ch' : orc) (g1 gn : mcp K G) (CP CE CC : G) (pf pf' : seproof K G) (r : K) (size : nat) (t : tr) : Prop :=
  forks ch ch' "c" (se_point ch CP CE CC pf t) /\ se_d _ _ pf = se_d _ _ pf' /\ se_dot _ _ pf = se_dot _ _ pf' /\
  (exists t1, sum_check_eval_verify K G ch g1 gn CP CE CC pf r size t = Ok (true, t1)) /\ exists t1, sum_check_eval_verify K G ch' g1 gn CP CE CC pf' r size t = Ok (true, t1).
(** Three more accepted answers for one round: to another last challenge, and to two last challenges after other weights. *)
Record se_rewind := mkSR { sr_ch1 : orc; sr_pf1 : seproof K G; sr_ch2 : orc; sr_pf2 : seproof K G; sr_ch3 : orc; sr_pf3 : seproof K G }.
Definition se_rewound (R : se_rewind) (ch : orc) (g1 gn : mcp K G) (CP CE CC : G) (pf : seproof K G) (r : K) (size : nat) (t : tr) : Prop :=
  se_twice ch (sr_ch1 R) g1 gn CP CE CC pf (sr_pf1 R) r size t /\ se_twice (sr_ch2 R) (sr_ch3 R) g1 gn CP CE CC (sr_pf2 R) (sr_pf3 R) r size t /\
  se_w0 ch t * se_w1 (sr_ch2 R) t - se_w0 (sr_ch2 R) t * se_w1 ch t <> 0.
(** The same for every round of a sum-check; [R j] belongs to round j. The transcript runs along as in the verifier. *)
Fixpoint sc_rewound (R : nat -> se_rewind) (ch : orc) (g1 gn : mcp K G) (polys evals : list G) (proofs : list (seproof K G)) (ccom : G) (size n : nat) (t : tr) : Prop :=
  match n, polys, evals, proofs with
  | S n, CP :: polys, CE :: evals, pf :: proofs =>
      let r := ch "challenge_nextround" (MG "comm_poly" CP :: t) in
      let t := MG "comm_eval" CE :: MG "comm_claim_per_round" ccom :: MCh "challenge_nextround" :: MG "comm_poly" CP :: t in
      se_rewound (R 0%nat) ch g1 gn CP CE ccom pf r size t /\
      sc_rewound (fun j => R (S j)) ch g1 gn polys evals proofs CE size n (MCh "c" :: se_point ch CP CE ccom pf t)
  | _, _, _, _ => True
  end.
(** [n] round polynomials with openings of the commitments sent for them. *)
Definition polys_open (gn : mcp K G) (n : nat) (polys : list G) (ps : list (list K)) (bs : list K) : Prop :=
  length ps = n /\ Forall (fun p => length p = length (mc_gens K G gn)) ps /\
  forall j, (j < n)%nat -> exists C, nth_error polys j = Some C /\ opens_vec (mc_gens K G gn) (mc_h K G gn) C (nth j ps []) (nth j bs 0).
(** Product and equality proofs answered twice. *)
Definition prod_twice (ch ch' : orc) (p : mcp K G) (pf pf' : pproof K G) (A B P : G) (t : tr) : Prop :=
  forks ch ch' "c" (MG "delta" (pp_delta _ _ pf) :: MG "beta" (pp_beta _ _ pf) :: MG "alpha" (pp_alpha _ _ pf) :: MG "Z" P :: MG "Y" B :: MG "X" A :: t) /\
  pp_alpha _ _ pf = pp_alpha _ _ pf' /\ pp_beta _ _ pf = pp_beta _ _ pf' /\ pp_delta _ _ pf = pp_delta _ _ pf' /\
  (exists t1, product_verify K G ch p pf A B P t = Ok (true, t1)) /\ exists t1, product_verify K G ch' p pf' A B P t = Ok (true, t1).
Definition eq_twice (ch ch' : orc) (p : mcp K G) (pf pf' : eproof K G) (C1 C2 : G) (t : tr) : Prop :=
  forks ch ch' "c" (MG "alpha" (ep_alpha _ _ pf) :: MG "C2" C2 :: MG "C1" C1 :: t) /\ ep_alpha _ _ pf = ep_alpha _ _ pf' /\
  (exists t1, eq_verify K G ch p C1 C2 pf t = (true, t1)) /\ exists t1, eq_verify K G ch' p C1 C2 pf' t = (true, t1).
End S.
Arguments relation {K G}. Arguments se_w0 {K G}. Arguments se_w1 {K G}. Arguments se_point {K G}. Arguments se_twice {K G}. Arguments se_rewound {K G}. Arguments sc_rewound {K G}.
Arguments polys_open {K G}. Arguments prod_twice {K G}. Arguments eq_twice {K G}.
