(** The three programs together. *)
From Coq Require Import String Ascii ZArith List Lia Bool.
From Verif Require Import Field ModelLC SpecLC ModelCS SpecCS ModelMimc ModelCli SpecCli ProofsCli ModelCliMain SpecCliMain ProofsCliMain.
From Coq Require Import List.
Import ListNotations.
Local Open Scope Z_scope.
Section P.
Variable K : PFld.
Variables (nl : nat) (cts : list K).
Variable R : Type.
Variable GR : groth K R.
Variables SN NI : univ K R.
Variable BU : bullet K R.
Variable jprint : json -> list Z.
Variable jparse : list Z -> option json.
Variable efr : K -> list Z.
Variable dfr : list Z -> option K.
Notation setup := (setup_main K nl cts R GR SN NI).
Notation prove := (prove_main K nl cts R GR SN NI BU jprint efr).
Notation verify := (verify_main K R GR SN NI BU jparse dfr).
Notation off := (power_off K nl cts).
Notation on := (power_on K nl cts).
Notation setup_makes := (setup_makes K nl cts R GR SN NI).
Notation proof_made := (proof_made K R GR SN NI BU).
Notation contents := (contents K efr).

(** ** setup *)
Lemma scheme_run r scheme k w v w' : setup_scheme K R GR SN NI scheme (str (name k)) (off k) r w = (Finished v, w') <-> v = None /\ setup_makes r k w scheme w'.
Proof.
  unfold setup_scheme, setup_univ.
  destruct (seqb scheme (str "groth16")) eqn:E1; [apply seqb_eq in E1; subst scheme|].
  { rewrite !path_setup. split.
    - destruct (g_gen K R GR (off k) r) as [p| |] eqn:G; try discriminate. intro Q. injection Q as <- <-. split; [reflexivity|]. constructor. exact G.
    - intros [-> M]. inversion M as [p G|p G|p G]; subst. rewrite G. reflexivity. }
  destruct (seqb scheme (str "spartan_snark")) eqn:E2; [apply seqb_eq in E2; subst scheme|].
  { rewrite !path_setup. split.
    - destruct (u_gen K R SN (off k) r) as [p| |] eqn:G; try discriminate. intro Q. injection Q as <- <-. split; [reflexivity|]. constructor. exact G.
    - intros [-> M]. inversion M as [p G|p G|p G]; subst. rewrite G. reflexivity. }
  destruct (seqb scheme (str "spartan_nizk")) eqn:E3; [apply seqb_eq in E3; subst scheme|].
  { rewrite !path_setup. split.
    - destruct (u_gen K R NI (off k) r) as [p| |] eqn:G; try discriminate. intro Q. injection Q as <- <-. split; [reflexivity|]. constructor. exact G.
    - intros [-> M]. inversion M as [p G|p G|p G]; subst. rewrite G. reflexivity. }
  split; [discriminate|]. intros [_ M]. exfalso. inversion M; subst; discriminate.
Qed.
Theorem setup_finishes r args w v w' : setup r args w = (Finished v, w') <->
  v = None /\ exists prog scheme rest k, args = prog :: scheme :: str "bls12_381" :: rest /\ circuit_arg rest = str (name k) /\ setup_makes r k w scheme w'.
Proof.
  destruct args as [|prog [|scheme [|curve rest]]]; cbn [setup_main]; try (split; [discriminate|intros (_ & p & s & re & k & E & _); discriminate E]).
  fold (circuit_arg rest). destruct (seqb curve bls) eqn:C.
  - apply seqb_eq in C. subst curve. destruct (kind_of (circuit_arg rest)) as [k|] eqn:Q.
    + pose proof (kind_inv _ _ Q) as Q'. rewrite Q', scheme_run. split.
      * intros [-> M]. split; [reflexivity|]. exists prog, scheme, rest, k. repeat split; auto.
      * intros (-> & p & s & re & k' & E & A & M). injection E as -> -> ->. split; [reflexivity|]. rewrite Q' in A. assert (k = k') as -> by (destruct k, k'; try reflexivity; discriminate A). exact M.
    + split; [discriminate|]. intros (_ & p & s & re & k' & E & A & M). injection E as -> -> ->. rewrite A, kind_name in Q. discriminate.
  - split; [discriminate|]. intros (_ & p & s & re & k' & E & A & M). injection E as -> -> -> ->. change (str "bls12_381") with bls in C. rewrite seqb_refl in C. discriminate.
Qed.
Theorem setup_else r args w : (forall v, fst (setup r args w) <> Finished v) -> snd (setup r args w) = w.
Proof.
  intro N. destruct args as [|prog [|scheme [|curve rest]]]; cbn [setup_main] in *; try reflexivity. fold (circuit_arg rest) in *.
  destruct (seqb curve bls); [|reflexivity]. destruct (kind_of (circuit_arg rest)) as [k|]; [|reflexivity].
  unfold setup_scheme, setup_univ in *. destruct (seqb scheme (str "groth16")); [destruct (g_gen K R GR (off k) r); try reflexivity; exfalso; eapply N; reflexivity|].
  destruct (seqb scheme (str "spartan_snark")); [destruct (u_gen K R SN (off k) r); try reflexivity; exfalso; eapply N; reflexivity|].
  destruct (seqb scheme (str "spartan_nizk")); [destruct (u_gen K R NI (off k) r); try reflexivity; exfalso; eapply N; reflexivity|]. reflexivity.
Qed.
Theorem setup_two r prog scheme w : setup r [prog; scheme] w = (Panicked, w). Proof. reflexivity. Qed.

(** ** prove *)
Lemma made_iff r k c w scheme b : prove_scheme K R GR SN NI BU scheme (str (name k)) c r w = Some (Ok b) <-> proof_made r k c w scheme b.
Proof.
  unfold prove_scheme, prove_univ.
  destruct (seqb scheme (str "groth16")) eqn:E1; [apply seqb_eq in E1; subst scheme|].
  { rewrite !path_setup. split.
    - destruct (g_dpk K R GR _) as [pk|] eqn:G; [|discriminate]. destruct (g_prove K R GR pk c r) as [p| |] eqn:Q; cbn [rbind]; try discriminate. intro X. injection X as <-. econstructor; eassumption.
    - intro M. inversion M as [pk p G Q|t Q|s p G Q|s p G Q]; subst. rewrite G, Q. reflexivity. }
  destruct (seqb scheme (str "bulletproofs")) eqn:E2; [apply seqb_eq in E2; subst scheme|].
  { split.
    - destruct (b_prove K R BU c r) as [t| |] eqn:Q; cbn [rbind]; try discriminate. intro X. injection X as <-. constructor; assumption.
    - intro M. inversion M as [pk p G Q|t Q|s p G Q|s p G Q]; subst. rewrite Q. reflexivity. }
  destruct (seqb scheme (str "spartan_snark")) eqn:E3; [apply seqb_eq in E3; subst scheme|].
  { rewrite !path_setup. split.
    - destruct (u_dsrs K R SN _) as [pk|] eqn:G; [|discriminate]. destruct (u_prove K R SN pk c r) as [p| |] eqn:Q; cbn [rbind]; try discriminate. intro X. injection X as <-. econstructor; eassumption.
    - intro M. inversion M as [pk p G Q|t Q|s p G Q|s p G Q]; subst. rewrite G, Q. reflexivity. }
  destruct (seqb scheme (str "spartan_nizk")) eqn:E4; [apply seqb_eq in E4; subst scheme|].
  { rewrite !path_setup. split.
    - destruct (u_dsrs K R NI _) as [pk|] eqn:G; [|discriminate]. destruct (u_prove K R NI pk c r) as [p| |] eqn:Q; cbn [rbind]; try discriminate. intro X. injection X as <-. econstructor; eassumption.
    - intro M. inversion M as [pk p G Q|t Q|s p G Q|s p G Q]; subst. rewrite G, Q. reflexivity. }
  split; [discriminate|]. intro M. inversion M; subst; discriminate.
Qed.
Lemma proof_path_eq scheme k : path PROOFS_DIR scheme bls (str (name k)) (str ".proof.json") = proof_path scheme k.
Proof. unfold path, proof_path, PROOFS_DIR, bls. change (str "-bls12_381-") with (str "-" ++ str "bls12_381" ++ str "-"). rewrite <- !app_assoc. reflexivity. Qed.
Theorem prove_finishes r args w v w' : prove r args w = (Finished v, w') <->
  v = None /\ exists prog scheme k rest c p b, args = prog :: scheme :: str "bls12_381" :: str (name k) :: rest /\ on k rest = Ok (c, p) /\ proof_made r k c w scheme b /\
  w' = write w (proof_path scheme k) (jprint (contents k scheme p b)).
Proof.
  destruct args as [|prog [|scheme [|curve [|circuit rest]]]]; cbn [prove_main]; try (split; [discriminate|intros (_ & p & s & k & re & c & q & b & E & _); discriminate E]).
  destruct (seqb curve bls) eqn:C.
  2:{ split; [discriminate|]. intros (_ & p & s & k & re & c & q & b & E & _). injection E as -> -> -> -> ->. change (str "bls12_381") with bls in C. rewrite seqb_refl in C. discriminate. }
  apply seqb_eq in C. subst curve. destruct (kind_of circuit) as [k|] eqn:Q.
  2:{ split; [discriminate|]. intros (_ & p & s & k & re & c & q & b & E & _). injection E as -> -> -> ->. rewrite kind_name in Q. discriminate. }
  apply kind_inv in Q. subst circuit.
  assert (KI : forall k', str (name k) = str (name k') -> k' = k) by (intros k' E; destruct k, k'; try reflexivity; discriminate E).
  destruct (on k rest) as [[c p]| |] eqn:P.
  2,3: split; [discriminate|]; intros (_ & p' & s & k' & re & c' & q & b & E & P' & _); injection E as -> -> E ->; apply KI in E; subst k'; rewrite P in P'; discriminate.
  destruct (prove_scheme K R GR SN NI BU scheme (str (name k)) c r w) as [[b| |]|] eqn:S.
  - rewrite proof_path_eq. split.
    + intro E. assert (v = None) as -> by congruence. split; [reflexivity|]. exists prog, scheme, k, rest, c, p, b. split; [reflexivity|]. split; [exact P|]. split; [apply made_iff, S|]. change (proof_json K efr (str (name k)) scheme p b) with (contents k scheme p b) in E. congruence.
    + intros (-> & p' & s & k' & re & c' & q & b' & E & P' & M & ->). injection E as -> -> E ->. apply KI in E. subst k'. rewrite P in P'. injection P' as <- <-. apply made_iff in M. rewrite S in M. injection M as <-. reflexivity.
  - split; [discriminate|]. intros (_ & p' & s & k' & re & c' & q & b' & E & P' & M & _). injection E as -> -> E ->. apply KI in E. subst k'. rewrite P in P'. injection P' as <- <-. apply made_iff in M. rewrite S in M. discriminate.
  - split; [discriminate|]. intros (_ & p' & s & k' & re & c' & q & b' & E & P' & M & _). injection E as -> -> E ->. apply KI in E. subst k'. rewrite P in P'. injection P' as <- <-. apply made_iff in M. rewrite S in M. discriminate.
  - split; [discriminate|]. intros (_ & p' & s & k' & re & c' & q & b' & E & P' & M & _). injection E as -> -> E ->. apply KI in E. subst k'. rewrite P in P'. injection P' as <- <-. apply made_iff in M. rewrite S in M. discriminate.
Qed.
Theorem prove_else r args w : (forall v, fst (prove r args w) <> Finished v) -> snd (prove r args w) = w.
Proof.
  intro N. destruct args as [|prog [|scheme [|curve [|circuit rest]]]]; cbn [prove_main] in *; try reflexivity.
  destruct (seqb curve bls); [|reflexivity]. destruct (kind_of circuit) as [k|]; [|reflexivity]. destruct (on k rest) as [[c p]| |]; try reflexivity.
  destruct (prove_scheme K R GR SN NI BU scheme circuit c r w) as [[b| |]|]; try reflexivity. exfalso. eapply N. reflexivity.
Qed.
Theorem prove_short r prog a b w : prove r [prog; a] w = (Panicked, w) /\ prove r [prog; a; b] w = (Panicked, w). Proof. split; reflexivity. Qed.
End P.
