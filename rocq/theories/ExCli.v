(** Concrete encodings and systems for the examples on the command-line programs. These encodings stand for serde_json and for the
    serialization of field elements, points, keys and proofs; they only show that the hypotheses of the theorems can be met. *)
From Coq Require Import String ZArith List Lia Bool.
From Verif Require Import Zp ExMarlin Field Poly Module SpecMarlin ModelTranscript ModelLC ModelCS ModelGroth16 SpecGroth16 ModelBulletproofs ModelCli SpecCli ModelCliMain SpecCliMain ModelCliInst.
From Coq Require Import List.
Import ListNotations.
Local Open Scope Z_scope.
(** ** Values followed by anything *)
Definition dec_of (A : Type) := list Z -> option (A * list Z).
Definition self_delim {A} (e : A -> list Z) (d : dec_of A) : Prop := forall x r, d (e x ++ r) = Some (x, r).
Fixpoint elist {A} (e : A -> list Z) (l : list A) : list Z := match l with [] => [0] | x :: r => 1 :: e x ++ elist e r end.
Fixpoint dlist {A} (n : nat) (d : dec_of A) (l : list Z) : option (list A * list Z) :=
  match n, l with
  | S n, 0 :: r => Some ([], r)
  | S n, _ :: r => match d r with Some (x, r') => match dlist n d r' with Some (xs, r'') => Some (x :: xs, r'') | None => None end | None => None end
  | _, _ => None
  end.
Definition dlist_all {A} (d : dec_of A) (l : list Z) := dlist (S (length l)) d l.
Lemma dlist_ok_n {A} (e : A -> list Z) (d : dec_of A) xs : (forall x, In x xs -> forall r, d (e x ++ r) = Some (x, r)) -> forall n r, (length (elist e xs) <= n)%nat -> dlist n d (elist e xs ++ r) = Some (xs, r).
Proof.
  induction xs as [|x xs IH]; intros S n r L; cbn [elist length] in L; destruct n as [|n]; try lia; cbn [elist app dlist]; [reflexivity|].
  rewrite <- app_assoc, (S x (or_introl eq_refl)), IH; [reflexivity|intros; apply S; right; assumption|]. rewrite app_length in L. lia.
Qed.
Lemma dlist_ok {A} (e : A -> list Z) d : self_delim e d -> self_delim (elist e) (dlist_all d).
Proof. intros S xs r. unfold dlist_all. apply (dlist_ok_n e d xs (fun x _ => S x)). rewrite app_length. lia. Qed.
Definition epair {A B} (e : A -> list Z) (f : B -> list Z) (p : A * B) : list Z := e (fst p) ++ f (snd p).
Definition dpair {A B} (d : dec_of A) (g : dec_of B) : dec_of (A * B) := fun l => match d l with Some (x, r) => match g r with Some (y, r') => Some ((x, y), r') | None => None end | None => None end.
Lemma dpair_ok {A B} (e : A -> list Z) (f : B -> list Z) d g : self_delim e d -> self_delim f g -> self_delim (epair e f) (dpair d g).
Proof. intros H1 H2 [x y] r. unfold epair, dpair. cbn [fst snd]. rewrite <- app_assoc, H1, H2. reflexivity. Qed.
Lemma via {A B} (to : A -> B) (from : B -> A) (e : B -> list Z) (d : dec_of B) : (forall x, from (to x) = x) -> self_delim e d ->
  lossless (fun x => e (to x)) (fun l => match d l with Some (y, _) => Some (from y) | None => None end).
Proof. intros F S x. rewrite <- (app_nil_r (e (to x))), S, F. reflexivity. Qed.
Lemma elist_bytes {A} (e : A -> list Z) : in_bytes e -> in_bytes (elist e).
Proof. intros B xs. induction xs as [|x xs IH]; cbn [elist]; [repeat constructor; lia|]. constructor; [unfold is_byte; lia|]. apply Forall_app. split; [apply B|exact IH]. Qed.
Lemma epair_bytes {A B} (e : A -> list Z) (f : B -> list Z) : in_bytes e -> in_bytes f -> in_bytes (epair e f).
Proof. intros H1 H2 [x y]. apply Forall_app. split; [apply H1|apply H2]. Qed.
(** ** Json *)
Definition ez (z : Z) : list Z := [z].
Definition dz : dec_of Z := fun l => match l with z :: r => Some (z, r) | [] => None end.
Lemma dz_ok : self_delim ez dz. Proof. intros z r. reflexivity. Qed.
Fixpoint jenc (j : json) : list Z :=
  match j with
  | JOther => [0]
  | JStr s => 1 :: elist ez s
  | JArr l => 2 :: (fix go l := match l with [] => [0] | x :: r => 1 :: jenc x ++ go r end) l
  | JObj l => 3 :: (fix go l := match l with [] => [0] | (k, x) :: r => 1 :: (elist ez k ++ jenc x) ++ go r end) l
  end.
Fixpoint jdec (n : nat) (l : list Z) : option (json * list Z) :=
  match n with
  | O => None
  | S n => match l with
           | [] => None
           | t :: r => if t =? 0 then Some (JOther, r)
                       else if t =? 1 then match dlist n dz r with Some (s, r') => Some (JStr s, r') | None => None end
                       else if t =? 2 then match dlist n (jdec n) r with Some (s, r') => Some (JArr s, r') | None => None end
                       else match dlist n (dpair (dlist n dz) (jdec n)) r with Some (s, r') => Some (JObj s, r') | None => None end
           end
  end.
Lemma jarr_enc l : jenc (JArr l) = 2 :: elist jenc l.
Proof. cbn [jenc]. f_equal. induction l as [|x l IH]; [reflexivity|]. cbn [elist]. rewrite <- IH. reflexivity. Qed.
Lemma jobj_enc l : jenc (JObj l) = 3 :: elist (epair (elist ez) jenc) l.
Proof. cbn [jenc]. f_equal. induction l as [|[k x] l IH]; [reflexivity|]. cbn [elist]. rewrite <- IH. reflexivity. Qed.
Lemma elist_in {A} (e : A -> list Z) x l : In x l -> (length (e x) < length (elist e l))%nat.
Proof. induction l as [|y l IH]; [intros []|]; intros [I|I]; cbn [elist length]; rewrite app_length; [subst; lia|specialize (IH I); lia]. Qed.
Lemma jdec_ok : forall n j r, (length (jenc j) <= n)%nat -> jdec n (jenc j ++ r) = Some (j, r).
Proof.
  induction n as [|n IH]; intros j r L.
  - destruct j; cbn [jenc length] in L; lia.
  - destruct j as [s|l|l|].
    + cbn [jenc length] in L. cbn [jenc app jdec Z.eqb]. rewrite (dlist_ok_n ez dz s (fun x _ => dz_ok x)) by lia. reflexivity.
    + rewrite jarr_enc in *. cbn [length] in L. cbn [app jdec Z.eqb Pos.eqb]. rewrite (dlist_ok_n jenc (jdec n) l); [reflexivity| |lia].
      intros x I r'. apply IH. pose proof (elist_in jenc x l I). lia.
    + rewrite jobj_enc in *. cbn [length] in L. cbn [app jdec Z.eqb Pos.eqb]. rewrite (dlist_ok_n (epair (elist ez) jenc) _ l); [reflexivity| |lia].
      intros [k x] I r'. pose proof (elist_in (epair (elist ez) jenc) (k, x) l I) as B. unfold epair in *. cbn [fst snd] in *. rewrite app_length in B. unfold dpair.
      rewrite <- app_assoc, (dlist_ok_n ez dz k (fun x _ => dz_ok x)) by lia. rewrite IH by lia. reflexivity.
    + reflexivity.
Qed.
Definition jprint97 (j : json) : list Z := jenc j.
Definition jparse97 (l : list Z) : option json := match jdec (length l) l with Some (j, _) => Some j | None => None end.
Lemma json97 : lossless jprint97 jparse97.
Proof. intro j. unfold jparse97, jprint97. rewrite <- (app_nil_r (jenc j)) at 2. rewrite jdec_ok by lia. reflexivity. Qed.
(** ** Elements in one byte, keys and proofs *)
Definition ek (x : F97) : list Z := [toZ x].
Definition dk : dec_of F97 := fun l => match l with b :: r => Some (of_Z b, r) | [] => None end.
Lemma dk_ok : self_delim ek dk. Proof. intros x r. unfold ek, dk. cbn [app]. rewrite of_toZ. reflexivity. Qed.
Lemma ek_bytes : in_bytes ek.
Proof. intro x. repeat constructor; pose proof (toZ_range (p := F97) x) as T; change (pmod F97) with 97 in T; lia. Qed.
Definition dfr97 (l : list Z) : option F97 := match dk l with Some (x, _) => Some x | None => None end.
Lemma fr97 : lossless ek dfr97. Proof. intro x. unfold dfr97. rewrite <- (app_nil_r (ek x)), dk_ok. reflexivity. Qed.
Definition eunary (n : nat) : list Z := elist (fun _ : unit => []) (repeat tt n).
Definition dunary : dec_of nat := fun l => match dlist_all (fun r => Some (tt, r)) l with Some (x, r) => Some (length x, r) | None => None end.
Lemma dunary_ok : self_delim eunary dunary.
Proof. intros n r. unfold eunary, dunary. rewrite (dlist_ok (fun _ : unit => []) (fun r => Some (tt, r))) by (intros [] r'; reflexivity). rewrite repeat_length. reflexivity. Qed.
Lemma eunary_bytes : in_bytes eunary. Proof. intro n. apply elist_bytes. intro. constructor. Qed.
Definition vk_to (v : vkey F97 P97) : list F97 * list F97 := ([alpha_g1 _ _ v; beta_g2 _ _ v; gamma_g2 _ _ v; delta_g2 _ _ v], gamma_abc_g1 _ _ v).
Definition vk_of (p : list F97 * list F97) : vkey F97 P97 := let n i := nth i (fst p) (z97 0) in mkVK F97 P97 (n 0%nat) (n 1%nat) (n 2%nat) (n 3%nat) (snd p).
Definition pk_to (k : params F97 P97) : list F97 * list F97 * list F97 * list (list F97) :=
  (vk_to (pvk _ _ k), [beta_g1 _ _ k; delta_g1 _ _ k], [a_query _ _ k; b_g1_query _ _ k; b_g2_query _ _ k; h_query _ _ k; l_query _ _ k]).
Definition pk_of (p : list F97 * list F97 * list F97 * list (list F97)) : params F97 P97 :=
  let '(v, s, q) := p in let n i := nth i q [] in mkPar F97 P97 (vk_of v) (nth 0 s (z97 0)) (nth 1 s (z97 0)) (n 0%nat) (n 1%nat) (n 2%nat) (n 3%nat) (n 4%nat).
Definition pf_to (p : proof F97 P97) : list F97 := [pa _ _ p; pb _ _ p; pc _ _ p].
Definition pf_of (l : list F97) : proof F97 P97 := mkPrf F97 P97 (nth 0 l (z97 0)) (nth 1 l (z97 0)) (nth 2 l (z97 0)).
Definition el := elist ek. Definition dl := dlist_all dk.
Lemma dl_ok : self_delim el dl. Proof. apply dlist_ok, dk_ok. Qed.
Lemma el_bytes : in_bytes el. Proof. apply elist_bytes, ek_bytes. Qed.
Definition epk97 k := epair (epair (epair el el) el) (elist el) (pk_to k).
Definition dpk97 l := match dpair (dpair (dpair dl dl) dl) (dlist_all dl) l with Some (y, _) => Some (pk_of y) | None => None end.
Definition evk97 v := epair el el (vk_to v).
Definition dvk97 l := match dpair dl dl l with Some (y, _) => Some (vk_of y) | None => None end.
Definition epf97 p := el (pf_to p).
Definition dpf97 l := match dl l with Some (y, _) => Some (pf_of y) | None => None end.
(** What a run draws, for examples: a number. *)
Definition keys97 (r : Z) : gdraw F97 P97 := mkDraw F97 P97 (z97 (r + 1)) (z97 (r + 2)) (z97 5) (z97 6) (z97 11) (z97 1) (z97 2).
Definition blinds97 (r : Z) : F97 * F97 := (z97 r, z97 (r + 3)).
Definition GR97 := groth16_sys F97 P97 dnew97 Z keys97 blinds97 epk97 dpk97 evk97 dvk97 epf97 dpf97.
Lemma good97 : good_groth GR97.
Proof.
  repeat split.
  - apply (via pk_to pk_of); [intros [[] ? ? ? ? ? ? ?]; reflexivity|]. repeat apply dpair_ok; try apply dl_ok. apply dlist_ok, dl_ok.
  - apply (via vk_to vk_of); [intros []; reflexivity|]. apply dpair_ok; apply dl_ok.
  - apply (via pf_to pf_of); [intros []; reflexivity|]. apply dl_ok.
  - intro p. apply el_bytes.
Qed.
Lemma family97 : dom_family dnew97.
Proof. intros n d E. destruct radix2_97 as [V _]. destruct (V n d E) as (A & B & _). split; assumption. Qed.
(** ** Bulletproofs *)
Definition bp_to (p : bproof F97 (G1 P97)) : list F97 * list F97 * list F97 * list F97 * list F97 :=
  ([A_I _ _ p; A_O _ _ p; A_W _ _ p; S_ _ _ p; T_2 _ _ p; T_3 _ _ p; T_5 _ _ p; T_6 _ _ p; T_7 _ _ p; T_8 _ _ p; T_9 _ _ p; T_10 _ _ p; mu _ _ p; tau_x _ _ p; t_x _ _ p; IPP_P _ _ p; ip_a _ _ (IPP _ _ p); ip_b _ _ (IPP _ _ p)],
   l_x _ _ p, r_x _ _ p, L_vec _ _ (IPP _ _ p), R_vec _ _ (IPP _ _ p)).
Definition bp_of (t : list F97 * list F97 * list F97 * list F97 * list F97) : bproof F97 (G1 P97) :=
  let '(s, l, r, lv, rv) := t in let n i := nth i s (z97 0) in
  mkBP F97 (G1 P97) (n 0%nat) (n 1%nat) (n 2%nat) (n 3%nat) (n 4%nat) (n 5%nat) (n 6%nat) (n 7%nat) (n 8%nat) (n 9%nat) (n 10%nat) (n 11%nat) (n 12%nat) (n 13%nat) l r (n 14%nat) (mkIpp F97 (G1 P97) lv rv (n 16%nat) (n 17%nat)) (n 15%nat).
Definition gens_to (g : gens F97 (G1 P97)) : list F97 * list F97 * list F97 * list nat :=
  (g_vec_N _ _ g, h_vec_N _ _ g, [gg _ _ g; gh _ _ g; gu _ _ g], [gn _ _ g; gN _ _ g; gk _ _ g; gn_w _ _ g]).
Definition gens_of (t : list F97 * list F97 * list F97 * list nat) : gens F97 (G1 P97) :=
  let '(gv, hv, s, c) := t in mkGens F97 (G1 P97) gv hv (nth 0 s (z97 0)) (nth 1 s (z97 0)) (nth 2 s (z97 0)) (nth 0 c 0%nat) (nth 1 c 0%nat) (nth 2 c 0%nat) (nth 3 c 0%nat).
Definition r1cs_to (c : r1cs F97) : list (list (list F97)) * list (list (nat * nat * F97)) := ([CL _ c; CR _ c; CO _ c], [CL_T _ c; CR_T _ c; CO_T _ c]).
Definition r1cs_of (t : list (list (list F97)) * list (list (nat * nat * F97))) : r1cs F97 :=
  mkR1cs F97 (nth 0 (fst t) []) (nth 1 (fst t) []) (nth 2 (fst t) []) (nth 0 (snd t) []) (nth 1 (snd t) []) (nth 2 (snd t) []).
Definition e_gens := epair (epair (epair el el) el) (elist eunary).
Definition d_gens := dpair (dpair (dpair dl dl) dl) (dlist_all dunary).
Definition e_r1cs := epair (elist (elist el)) (elist (elist (epair (epair eunary eunary) ek))).
Definition d_r1cs := dpair (dlist_all (dlist_all dl)) (dlist_all (dlist_all (dpair (dpair dunary dunary) dk))).
Definition e_bp := epair (epair (epair (epair el el) el) el) el.
Definition d_bp := dpair (dpair (dpair (dpair dl dl) dl) dl) dl.
Definition to3 (t : gens F97 (G1 P97) * r1cs F97 * bproof F97 (G1 P97)) := (gens_to (fst (fst t)), r1cs_to (snd (fst t)), bp_to (snd t)).
Definition enc97 t := epair (epair e_gens e_r1cs) e_bp (to3 t).
Definition dec97 l := match dpair (dpair d_gens d_r1cs) d_bp l with Some (y, _) => Some (gens_of (fst (fst y)), r1cs_of (snd (fst y)), bp_of (snd y)) | None => None end.
Definition ch97 : oracle F97 (G1 P97) := fun l t => z97 (2 + (Z.of_nat (length t) + Z.of_nat (String.length l)) mod 7).
Definition points97 (r : Z) (n : nat) : list (G1 P97) * list (G1 P97) * G1 P97 * G1 P97 * G1 P97 :=
  (map (fun i => z97 (r + Z.of_nat i)) (seq 1 n), map (fun i => z97 (r + 3 * Z.of_nat i)) (seq 1 n), z97 r, z97 (r + 2), z97 (r + 5)).
Definition masks97 (r : Z) : brand F97 :=
  mkRand F97 [z97 r; z97 3] [z97 4] (z97 1) (z97 2) (z97 3) (z97 4) (z97 5) (z97 6) (z97 7) (z97 8) (z97 9) (z97 r) (z97 11) (z97 12).
Definition BU97 := bulletproofs_sys F97 Z (G1 P97) ch97 points97 masks97 enc97 dec97.
Lemma bullet97 : good_bullet BU97.
Proof.
  split.
  - apply (via to3 (fun y => (gens_of (fst (fst y)), r1cs_of (snd (fst y)), bp_of (snd y)))).
    + intros [[[] []] [? ? ? ? ? ? ? ? ? ? ? ? ? ? ? ? ? [] ?]]. reflexivity.
    + repeat apply dpair_ok; repeat apply dlist_ok; repeat apply dpair_ok; try apply dunary_ok; try apply dk_ok; apply dl_ok.
  - intro t. apply epair_bytes; repeat apply epair_bytes; repeat apply elist_bytes; repeat apply epair_bytes; try apply eunary_bytes; try apply ek_bytes; apply el_bytes.
Qed.
Lemma ch97_nz l t : ch97 l t <> z97 0.
Proof.
  unfold ch97, z97. pose proof (Z.mod_pos_bound (Z.of_nat (length t) + Z.of_nat (String.length l)) 7 ltac:(lia)) as B. intro E. apply (of_Z_inj_small F97) in E; [lia|change (pmod F97) with 97; lia|change (pmod F97) with 97; lia].
Qed.
(** ** Spartan: a stand-in whose proofs are the public inputs. Only its files matter here. *)
Definition sp97 : univ F97 Z :=
  mkUniv F97 Z nat (list F97) (fun c _ => rbind (c (cs_new Setup)) (fun '(_, s) => Ok (length (ModelCS.cons s)))) (fun _ c _ => rbind (c (cs_new Prove)) (fun '(_, s) => Ok (skipn 1 (inps s))))
    (fun _ pf xs => Ok (forallb (fun '(a, b) => feqb a b) (combine pf xs))) eunary (fun l => option_map fst (dunary l)) el (fun l => option_map fst (dl l)).
Lemma univ97 : good_univ sp97.
Proof.
  repeat split.
  - intro x. cbn [u_dsrs u_esrs sp97]. rewrite <- (app_nil_r (eunary x)), dunary_ok. reflexivity.
  - intro x. cbn [u_dpf u_epf sp97]. rewrite <- (app_nil_r (el x)), dl_ok. reflexivity.
  - intro x. apply el_bytes.
Qed.
