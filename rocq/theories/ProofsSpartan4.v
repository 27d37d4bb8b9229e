(** Completeness of spartan's non-succinct proof. *)
From Verif Require Import Field Poly Module ModTac ProofsPC ModelTranscript ModelMle SpecMle ProofsMle ModelLibra ProofsLibra SpecLibra ProofsLibra3 ModelLC SpecLC ModelCS ModelSigma ProofsSigma ProofsSigma2 ProofsSigma3 ProofsSigma4 ModelSpartan SpecSpartan ProofsSpartan ProofsSpartan2 ProofsSpartan3 AttackSpartan.
From Coq Require Import String List Lia.
Local Open Scope string_scope.
Local Open Scope list_scope.
Local Open Scope fld_scope.
Section S.
Variable K : Fld.
Add Field Kf : (f_laws K).

(** ** Matrices and vectors *)
Lemma in_range_term ni na (m : list (list (K * var))) r t : in_range ni na m -> In t (nth r m []) -> match snd t with Input i => (i < ni)%nat | Aux i => (i < na)%nat end.
Proof.
  intros H I. destruct (Nat.lt_ge_cases r (length m)) as [L|L]; [|rewrite nth_overflow in I by exact L; destruct I].
  unfold in_range in H. rewrite Forall_forall in H. specialize (H _ (nth_In m [] L)). rewrite Forall_forall in H. exact (H _ I).
Qed.
Lemma row_bil ni na n m (aux inputs : list K) (rx : list K) : in_range ni na m -> (ni <= n)%nat -> (na <= n)%nat -> length aux = n -> (length m <= 2 ^ length rx)%nat ->
  mle (map (row_eval (assign inputs aux)) m) rx = bil K n m (fun r => nth r (eval_eq K rx) 0) (fun c => nth c (aux ++ inputs) 0).
Proof.
  intros Hr Hi Ha La Lm. rewrite mle_dot by (rewrite map_length; exact Lm). rewrite dot_sumn, map_length. unfold bil. apply sumn_ext. intros r Lr. f_equal.
  rewrite (nth_indep _ 0 (row_eval (assign inputs aux) [])) by (rewrite map_length; exact Lr). rewrite map_nth. unfold row_eval. apply fsum_map_ext. intros t Ht. f_equal. symmetry.
  pose proof (in_range_term ni na m r t Hr Ht) as B. apply nth_aux_inputs; [exact La| |]; destruct (snd t) as [i|i]; cbn [column]; try lia; exact I.
Qed.
Lemma col_bil ni na n m (w : list K) X Y : in_range ni na m -> (ni <= n)%nat -> (na <= n)%nat -> (forall j, nth j w 0 = sumn (length m) (fun row => entry n m row j * X row)) ->
  sumn (2 * n) (fun j => nth j w 0 * Y j) = bil K n m X Y.
Proof.
  intros Hr Hi Ha H. rewrite (bil_entries K n (2 * n)) by (intro j; apply (range_cols K ni na); assumption).
  rewrite (sumn_ext K (2 * n) _ (fun j => sumn (length m) (fun row => entry n m row j * Y j * X row))).
  2:{ intros j _. rewrite H, <- sumn_mul_r. apply sumn_ext. intros. ring. }
  rewrite sumn_swap. apply sumn_ext. intros r _. rewrite <- sumn_mul_r. reflexivity.
Qed.
Lemma mle_eval_eq (rx ry : list K) : length rx = length ry -> mle (eval_eq K ry) rx = fsum (map (fun bs => chi bs rx * chi bs ry) (cube (length rx))).
Proof. intro L. unfold mle. apply fsum_map_ext. intros bs Hb. apply cube_in in Hb. rewrite eval_eq_nth by congruence. ring. Qed.
Lemma assign_pad (inputs aux : list K) a b v : assign (inputs ++ repeat 0 a) (aux ++ repeat 0 b) v = assign inputs aux v.
Proof.
  assert (P : forall (l : list K) k i, nth i (l ++ repeat 0 k) 0 = nth i l 0).
  { intros l k i. destruct (Nat.lt_ge_cases i (length l)) as [L|L]; [apply app_nth1, L|]. rewrite app_nth2, (nth_overflow l) by exact L. apply nth_repeat. }
  destruct v; apply P.
Qed.
Lemma sat_rows i (inputs aux : list K) a b : inst_sat (assign inputs aux) i -> forall j,
  row_eval (assign (inputs ++ repeat 0 a) (aux ++ repeat 0 b)) (nth j (r_a K i) []) * row_eval (assign (inputs ++ repeat 0 a) (aux ++ repeat 0 b)) (nth j (r_b K i) []) =
  row_eval (assign (inputs ++ repeat 0 a) (aux ++ repeat 0 b)) (nth j (r_c K i) []).
Proof.
  intros [_ H] j. assert (E : forall l, row_eval (assign (inputs ++ repeat 0 a) (aux ++ repeat 0 b)) l = row_eval (assign inputs aux) l) by (intro l; apply fsum_map_ext; intros; rewrite assign_pad; reflexivity).
  rewrite !E. apply H.
Qed.
Lemma nth_rows (f : list (K * var) -> K) m j : f [] = 0 -> nth j (map f m) 0 = f (nth j m []).
Proof. intro H. rewrite <- H. apply map_nth. Qed.
Lemma total_zero i (inputs aux : list K) e k : (forall j, row_eval (assign inputs aux) (nth j (r_a K i) []) * row_eval (assign inputs aux) (nth j (r_b K i) []) = row_eval (assign inputs aux) (nth j (r_c K i) [])) ->
  0 = total K (term_r1cs K) [map (row_eval (assign inputs aux)) (r_a K i); map (row_eval (assign inputs aux)) (r_b K i); map (row_eval (assign inputs aux)) (r_c K i); e] k.
Proof.
  intro H. unfold total. symmetry. induction (seq 0 (2 ^ k)) as [|j l IH]; [reflexivity|]. cbn [map fsum]. rewrite IH. unfold term_r1cs at 1, at_j at 1 2 3 4. cbn [map nth].
  rewrite !nth_rows by reflexivity. rewrite H. ring.
Qed.
Lemma total_abc (evals z : list K) k : length evals = (2 ^ k)%nat -> total K (term_abc K) [evals; z] k = sumn (2 ^ k) (fun j => nth j evals 0 * nth j z 0).
Proof. intro L. unfold total. rewrite sumn_fsum. apply fsum_map_ext. intros j _. unfold term_abc, at_j. cbn [map nth]. ring. Qed.
End S.

Section T.
Variable K : Fld.
Variable G : Grp K.
Variable ch : oracle K G.
Add Field Kf2 : (f_laws K).
Notation tr := (transcript K G).
Notation com p x b := (poly_commit_vec K G (mc_gens K G p) x (mc_h K G p) b).

Lemma half_len_pow i : half_len K i = (2 ^ log2c (half_len K i))%nat /\ (r_aux K i <= half_len K i)%nat /\ (r_inputs K i <= half_len K i)%nat.
Proof.
  unfold half_len. destruct (next_pow2_above (Nat.max (r_aux K i) (r_inputs K i))) as (k & E & L & _). rewrite E in *. unfold log2c. rewrite Nat.log2_up_pow2 by lia. lia.
Qed.
Lemma pad_ok n (l : list K) : (length l <= n)%nat -> pad_to K n l = Ok (l ++ repeat 0 (n - length l)) /\ length (l ++ repeat 0 (n - length l)) = n.
Proof. intro L. unfold pad_to. replace (Nat.ltb n (length l)) with false by (symmetry; apply Nat.ltb_ge, L). split; [reflexivity|]. rewrite app_length, repeat_length. lia. Qed.
Lemma com_lin (p : mcp K G) g gs (e a b x y : K) : mc_gens _ _ p = g :: gs -> gsm e (gadd (com p [a] x) (gopp (com p [b] y))) = com p [e * (a - b)] (e * (x - y)).
Proof. intro E. rewrite E. unfold poly_commit_vec. rewrite !msm1. gmod; ring. Qed.
Lemma com_lin3 (p : mcp K G) g gs (r s t a b c x y z : K) : mc_gens _ _ p = g :: gs ->
  gadd (gadd (gsm r (com p [a] x)) (gsm s (com p [b] y))) (gsm t (com p [c] z)) = com p [a * r + b * s + c * t] (x * r + y * s + z * t).
Proof. intro E. rewrite E. unfold poly_commit_vec. rewrite !msm1. gmod; ring. Qed.
Lemma com_lin2 (p : mcp K G) g gs (e r a x b : K) : mc_gens _ _ p = g :: gs ->
  gsm e (gadd (gsm (1 - r) (com p [a] x)) (gsm r (com p [b] 0))) = com p [e * ((1 - r) * a + r * b)] ((1 - r) * x * e).
Proof. intro E. rewrite E. unfold poly_commit_vec. rewrite !msm1. gmod; ring. Qed.
(** The last equality proof when the verifier's first commitment hides x' instead of x. *)
Lemma eq_off (p : mcp K G) g gs (x x' y b1 b2 r : K) t pf t1 : mc_gens _ _ p = g :: gs -> x = y -> eq_proof K G ch p x b1 y b2 r t = (pf, t1) ->
  exists c c' tc tv, c' = ch "c" tc /\ eq_verify K G ch p (com p [x'] b1) (com p [y] b2) pf t = (geqb (gsm ((c - c') * (b1 - b2)) (mc_h _ _ p)) (gsm (c' * (x' - x)) g), tv) /\ (x' = x -> tv = t1 /\ c = c').
Proof.
  intros E Exy H. subst y. unfold eq_proof, draw in H. cbv zeta in H.
  exists (ch "c" (MG "alpha" (gsm r (mc_h K G p)) :: MG "C2" (com p [x] b2) :: MG "C1" (com p [x] b1) :: t)).
  exists (ch "c" (MG "alpha" (gsm r (mc_h K G p)) :: MG "C2" (com p [x] b2) :: MG "C1" (com p [x'] b1) :: t)).
  exists (MG "alpha" (gsm r (mc_h K G p)) :: MG "C2" (com p [x] b2) :: MG "C1" (com p [x'] b1) :: t). eexists.
  match type of H with (mkEP _ _ _ (?c * _ + _), _) = _ => set (c0 := c) in * end.
  injection H as <- <-. split; [reflexivity|]. split.
  - unfold eq_verify, draw. cbv zeta. cbn [ep_alpha ep_z]. f_equal. match goal with |- geqb _ (gadd (gsm ?c _) _) = _ => set (c1 := c) end. clearbody c0 c1.
    rewrite E. unfold poly_commit_vec. rewrite !msm1. cbn [hd]. apply Bool.eq_iff_eq_true. rewrite !geqb_true. split; intro Q.
    + transitivity (gadd (gsm (c0 * (b1 - b2) + r) (mc_h K G p)) (gopp (gsm (c1 * (b1 - b2) + r) (mc_h K G p)))); [gmod; ring|]. rewrite Q. gmod; ring.
    + transitivity (gadd (gsm ((c0 - c1) * (b1 - b2)) (mc_h K G p)) (gsm (c1 * (b1 - b2) + r) (mc_h K G p))); [gmod; ring|]. rewrite Q. gmod; ring.
  - intro X. subst x'. split; reflexivity.
Qed.
End T.
