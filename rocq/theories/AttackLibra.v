(** An adversary against the plain Libra verifier. This file does not model code of the repository: it is a program an attacker
    could run, without evaluating the circuit. libra_linear_gkr.rs:116-198 takes the wiring terms `eval_ru_final[1..3]` and
    `eval_rv_final[1..2]` from the proof and never compares them with the circuit's gates, so they can be solved for. *)
From Verif Require Export ModelLibra.
Local Open Scope string_scope.
Local Open Scope list_scope.
Local Open Scope fld_scope.
Section A.
Variable K : Fld.
Variable G : Type.
Variable ch : oracle K G.
Notation tr := (transcript K G).
(** Rounds with the polynomial claim * X, whose values at 0 and 1 add up to the claim. *)
Fixpoint f_rounds (n : nat) (claim : K) (t : tr) : list (list K) * list K * K * tr :=
  match n with
  | O => ([], [], claim, t)
  | S n => let p := ptrim K [0; claim] in let '(r, t) := draw K G ch "challenge_nextround" (MFs "poly" p :: t) in
      let '(ps, rs, cl, t) := f_rounds n (claim * r) t in (p :: ps, r :: rs, cl, t)
  end.
(** Two numbers a, b with claim = a * v * u + b * u + b * v. *)
Definition solve (u v claim : K) : option (K * K) :=
  if negb (feqb (v * u) 0) then Some (claim / (v * u), 0) else if negb (feqb (u + v) 0) then Some (0, claim / (u + v))
  else if feqb claim 0 then Some (0, 0) else None.
(** The value the verifier computes from the input layer. *)
Definition mle_in (inputs r : list K) : K := match eval_value K inputs r with Ok x => x | _ => 0 end.
Fixpoint forge_layers (c : circuit) (inputs : list K) (d : nat) (alpha beta u_ v_ : K) (t : tr) : option (list (layer_proof K)) :=
  match d with
  | O => Some []
  | S d' =>
      match nth_error (c_layers c) d' with
      | None => None
      | Some lo =>
          let '(p1, ru, c1, t) := f_rounds (l_bits lo) (alpha * u_ + beta * v_) t in
          let u := match d' with O => mle_in inputs ru | S _ => 1 end in
          let e1 := [u; 0; 0; c1] in let t := MFs "claim_final" e1 :: t in
          let '(p2, rv, c2, t) := f_rounds (l_bits lo) c1 t in
          let v := match d' with O => mle_in inputs rv | S _ => 1 end in
          match solve u v c2 with
          | None => None
          | Some (a, b) =>
              let e2 := [v; a; b] in let t := MFs "claim_final" e2 :: t in
              option_map (cons (mkLP K (mkSC K p1 e1) (mkSC K p2 e2)))
                (match d' with
                 | O => Some []
                 | S _ => let '(al, t) := draw K G ch "challenge_alpha" t in let '(be, t) := draw K G ch "challenge_beta" t in forge_layers c inputs d' al be u v t
                 end)
          end
      end
  end.
Definition forge (c : circuit) (inputs outputs : list K) (hash : K) : option (list (layer_proof K)) :=
  match c_depth c with
  | O => None
  | S d => match nth_error (c_layers c) d with
           | None => None
           | Some top => match eval_output K G ch outputs (l_bits top) (gkr_init K G hash inputs outputs) with Ok (u, _, t) => forge_layers c inputs d 1 0 u 0 t | _ => None end
           end
  end.
End A.
