(** Proofs about the Bulletproofs circuit protocol. *)
From Verif Require Import Field Poly Module ModTac ModelTranscript ModelLC SpecLC ModelCS SpecCS ModelBulletproofs SpecBulletproofs ProofsIPP.
Local Open Scope fld_scope.
Section P.
Variable K : Fld.
Variable G : Grp K.
Variable ch : oracle K G.
Add Field Kf : (f_laws K).

(** ** Tabulated vectors *)
Definition tab (n : nat) (f : nat -> K) : list K := map f (seq 0 n).
Lemma length_tab n f : length (tab n f) = n. Proof. unfold tab. rewrite map_length, seq_length. reflexivity. Qed.
Lemma nth_tab n f i : (i < n)%nat -> nth i (tab n f) 0 = f i.
Proof. intro H. unfold tab. rewrite (nth_indep _ 0 (f 0%nat)) by (rewrite map_length, seq_length; lia). rewrite map_nth, seq_nth by lia. reflexivity. Qed.
Lemma tab_ext n f g : (forall i, (i < n)%nat -> f i = g i) -> tab n f = tab n g.
Proof. intro H. unfold tab. apply map_ext_in. intros i Hi. apply in_seq in Hi. apply H. lia. Qed.
Lemma list_tab (l : list K) n : length l = n -> l = tab n (fun i => nth i l 0).
Proof. intro H. apply (nth_ext _ _ 0 0); [rewrite length_tab; exact H|]. intros i Hi. rewrite nth_tab by lia. reflexivity. Qed.
Lemma tab_S n f : tab (S n) f = f 0%nat :: tab n (fun i => f (S i)).
Proof. unfold tab. cbn [seq map]. rewrite <- seq_shift, map_map. reflexivity. Qed.
Lemma dot_tab n f g : dot (tab n f) (tab n g) = sumn n (fun i => f i * g i).
Proof. rewrite dot_sumn, length_tab. apply sumn_ext. intros i Hi. rewrite !nth_tab by lia. reflexivity. Qed.
Lemma map_combine_tab (op : K -> K -> K) n f g : map (fun '(x, y) => op x y) (combine (tab n f) (tab n g)) = tab n (fun i => op (f i) (g i)).
Proof. revert f g. induction n; intros f g; [reflexivity|]. rewrite !tab_S. cbn [combine map]. f_equal. apply IHn. Qed.
Lemma map_tab (op : K -> K) n f : map op (tab n f) = tab n (fun i => op (f i)).
Proof. unfold tab. rewrite map_map. reflexivity. Qed.
Lemma hadamard_tab n f g : hadamard_product K (tab n f) (tab n g) = Ok (tab n (fun i => f i * g i)).
Proof. unfold hadamard_product. rewrite !length_tab, Nat.eqb_refl. f_equal. apply map_combine_tab. Qed.
Lemma inner_tab n f g : inner_product K (tab n f) (tab n g) = Ok (sumn n (fun i => f i * g i)).
Proof. unfold inner_product. rewrite !length_tab, Nat.eqb_refl, dot_tab. reflexivity. Qed.
Lemma msm_tab_add n : forall (gs : list G) f g, msm gs (tab n (fun i => f i + g i)) = gadd (msm gs (tab n f)) (msm gs (tab n g)).
Proof.
  induction n; intros gs f g; [cbn; rewrite !msm_nil_r; gmod; ring|]. rewrite !tab_S. destruct gs as [|a gs]; [cbn; gmod; ring|].
  cbn [msm]. rewrite (IHn gs (fun i => f (S i)) (fun i => g (S i))). gmod; ring.
Qed.
Lemma msm_tab_mul n c : forall (gs : list G) f, msm gs (tab n (fun i => c * f i)) = gsm c (msm gs (tab n f)).
Proof. intros gs f. rewrite <- (msm_scale K G), map_tab. reflexivity. Qed.
Lemma msm_tab_0 n : forall (gs : list G), msm gs (tab n (fun _ => 0)) = g0.
Proof.
  induction n; intros gs; [apply msm_nil_r|]. rewrite !tab_S. destruct gs as [|a gs]; [reflexivity|].
  cbn [msm]. rewrite IHn. gmod; ring.
Qed.
Lemma msm_firstn (ks : list K) : forall (gs : list G) n, (length ks <= n)%nat -> msm (firstn n gs) ks = msm gs ks.
Proof.
  induction ks as [|k ks IH]; intros gs n L; [rewrite !msm_nil_r; reflexivity|]. destruct n; [cbn in L; lia|]. destruct gs as [|g gs]; [reflexivity|].
  cbn [firstn msm]. rewrite IH by (cbn in L; lia). reflexivity.
Qed.
Lemma msm_pad (ks : list K) : forall (gs : list G) n, (length ks <= n)%nat -> msm gs ks = msm gs (tab n (fun i => nth i ks 0)).
Proof.
  induction ks as [|k ks IH]; intros gs n L.
  - rewrite msm_nil_r. symmetry. rewrite (tab_ext n (fun i => nth i [] 0) (fun _ => 0)) by (intros [|i] _; reflexivity). apply msm_tab_0.
  - destruct n; [cbn in L; lia|]. rewrite tab_S. destruct gs as [|g gs]; [reflexivity|]. cbn [msm nth]. rewrite (IH gs n) by (cbn in L; lia). reflexivity.
Qed.
Lemma msm_scaled n : forall (hs : list G) f g, (n <= length hs)%nat ->
  msm (map (fun '(y, p) => gsm y p) (combine (tab n f) hs)) (tab n g) = msm hs (tab n (fun i => f i * g i)).
Proof.
  induction n; intros hs f g L; [cbn; rewrite !msm_nil_r; reflexivity|]. destruct hs as [|h hs]; [cbn in L; lia|]. rewrite !tab_S. cbn [combine map msm].
  rewrite IHn by (cbn in L; lia). gmod; ring.
Qed.
Lemma pad_tab n (l : list K) : (length l <= n)%nat -> pad K n l = tab n (fun i => nth i l 0).
Proof.
  intro L. unfold pad. rewrite firstn_all2 by exact L. apply (nth_ext _ _ 0 0); [rewrite length_tab, app_length, repeat_length; lia|].
  intros i Hi. rewrite app_length, repeat_length in Hi. rewrite nth_tab by lia. destruct (Nat.lt_ge_cases i (length l)) as [H|H].
  - rewrite app_nth1 by exact H. reflexivity.
  - rewrite app_nth2 by exact H. rewrite (nth_overflow l) by exact H. apply nth_repeat.
Qed.
Lemma powers_tab c y n : powers K c y n = tab n (fun i => c * y ^ i).
Proof.
  revert c. induction n; intro c; [reflexivity|]. rewrite tab_S. cbn [powers fpow]. f_equal; [ring|]. rewrite IHn. apply tab_ext. intros i _. cbn [fpow]. ring.
Qed.
Lemma inv_all_tab n f : (forall i, (i < n)%nat -> f i <> 0) -> inv_all K (tab n f) = Ok (tab n (fun i => finv (f i))).
Proof.
  intro H. unfold inv_all. assert (E : existsb (fun x : K => feqb x 0) (tab n f) = false).
  { apply not_true_is_false. intro E. apply existsb_exists in E. destruct E as (x & I & E). apply feqb_eq in E. unfold tab in I. apply in_map_iff in I.
    destruct I as (i & <- & Hi). apply in_seq in Hi. apply (H i); [lia|exact E]. }
  rewrite E, map_tab. reflexivity.
Qed.
(** The vector "z^(i+1) c on the first n entries". *)
Definition wvec (n N : nat) (z c : K) : list K := tab N (fun i => if Nat.ltb i n then z ^ S i * c else 0).
Lemma zQ_tab z n : powers K z z n = tab n (fun i => z ^ S i).
Proof. rewrite powers_tab. reflexivity. Qed.
Lemma sumn_fsum' n (f : nat -> K) : fsum (map f (seq 0 n)) = sumn n f.
Proof. symmetry. apply sumn_fsum. Qed.
Lemma vector_product_w n N z c : vector_product K (powers K z z n) (repeat c n) N n = Ok (wvec n N z c).
Proof.
  rewrite zQ_tab. unfold vector_product. rewrite length_tab, Nat.eqb_refl, repeat_length. cbn [negb].
  destruct (Nat.ltb_spec n (Nat.min N n)) as [?|_]; [lia|]. f_equal. unfold wvec. apply tab_ext. intros i Hi. rewrite sumn_fsum'.
  destruct (Nat.ltb_spec i n) as [H|H].
  - rewrite (sumn_one K n _ i) by (try exact H; intros j Hj Nj; apply Nat.eqb_neq in Nj; rewrite Nj; ring). rewrite Nat.eqb_refl, nth_tab by exact H.
    f_equal. rewrite (nth_indep _ 0 c) by (rewrite repeat_length; exact H). apply nth_repeat.
  - apply sumn_0. intros j Hj. destruct (Nat.eqb_spec j i) as [->|_]; [lia|]. ring.
Qed.
Lemma mat_tab n N f i j : (i < n)%nat -> (j < N)%nat -> mat_at K (map (fun i => tab N (f i)) (seq 0 n)) i j = f i j.
Proof.
  intros Hi Hj. unfold mat_at. rewrite (nth_indep _ [] (tab N (f 0%nat))) by (rewrite map_length, seq_length; exact Hi).
  rewrite (map_nth (fun i => tab N (f i))), seq_nth by exact Hi. apply nth_tab. exact Hj.
Qed.
Lemma vmp_tab n N v f : (0 < n)%nat -> vector_matrix_product K (tab n v) (map (fun i => tab N (f i)) (seq 0 n)) =
  Ok (tab N (fun j => sumn n (fun i => v i * f i j))).
Proof.
  intro Hn. destruct n as [|n]; [lia|]. set (m := map (fun i => tab N (f i)) (seq 0 (S n))). unfold vector_matrix_product.
  assert (Em : m = tab N (f 0%nat) :: map (fun i => tab N (f i)) (seq 1 n)) by reflexivity.
  assert (Lm : length m = S n) by (unfold m; rewrite map_length, seq_length; reflexivity).
  destruct m as [|r0 m'] eqn:Em'; [discriminate|]. injection Em as Er Em''. rewrite <- Em'. rewrite length_tab.
  assert (Lr : length r0 = N) by (rewrite Er; apply length_tab). rewrite Lr, Em', Lm, Nat.eqb_refl, <- Em'. cbn [andb].
  assert (F : forallb (fun row : list K => Nat.eqb (length row) N) m = true).
  { apply forallb_forall. intros row I. unfold m in I. apply in_map_iff in I. destruct I as (i & <- & _). rewrite length_tab. apply Nat.eqb_refl. }
  rewrite F. f_equal. apply tab_ext. intros j Hj. rewrite sumn_fsum'. apply sumn_ext. intros i Hi. rewrite nth_tab by exact Hi. f_equal. unfold m. apply mat_tab; assumption.
Qed.
Lemma diag_w n N z c : (0 < n)%nat -> vector_matrix_product K (powers K z z n) (diag_mat K n N c) = Ok (wvec n N z c).
Proof.
  intro Hn. rewrite zQ_tab. unfold diag_mat.
  change (map (fun i => map (fun j => if Nat.eqb i j then c else 0) (seq 0 N)) (seq 0 n)) with (map (fun i => tab N ((fun i j => if Nat.eqb i j then c else 0) i)) (seq 0 n)).
  rewrite vmp_tab by exact Hn. f_equal. unfold wvec. apply tab_ext. intros i Hi. destruct (Nat.ltb_spec i n) as [H|H].
  - rewrite (sumn_one K n _ i) by (try exact H; intros j Hj Nj; apply Nat.eqb_neq in Nj; rewrite Nj; ring). rewrite Nat.eqb_refl. reflexivity.
  - apply sumn_0. intros j Hj. destruct (Nat.eqb_spec j i) as [->|_]; [lia|]. ring.
Qed.
(** ** Sparse maps *)
Definition nokey (i j : nat) (m : cmap K) : Prop := Forall (fun e => fst e <> (i, j)) m.
Lemma map_get_skip i j a b : nokey i j a -> map_get K (a ++ b) i j = map_get K b i j.
Proof.
  intro H. induction H as [|[[p q] x] a N _ IH]; [reflexivity|]. cbn [app map_get]. cbn in N.
  destruct (Nat.eqb_spec p i) as [->|]; [destruct (Nat.eqb_spec q j) as [->|]; [destruct (N eq_refl)|]|]; exact IH.
Qed.
Lemma map_get_none i j a : nokey i j a -> map_get K a i j = 0.
Proof. intro H. rewrite <- (app_nil_r a), map_get_skip by exact H. reflexivity. Qed.
Lemma map_get_end i j a b : nokey i j b -> map_get K (a ++ b) i j = map_get K a i j.
Proof.
  intro H. induction a as [|[[p q] x] a IH]; [apply map_get_none, H|]. cbn [app map_get]. rewrite IH. reflexivity.
Qed.
Definition sp_row (E : nat -> nat -> K) (w i : nat) : cmap K := concat (map (fun j => if feqb (E i j) 0 then [] else [(i, j, E i j)]) (seq 0 w)).
Definition sp (E : nat -> nat -> K) (n w : nat) : cmap K := concat (map (sp_row E w) (seq 0 n)).
Lemma sp_row_S E w i : sp_row E (S w) i = sp_row E w i ++ (if feqb (E i w) 0 then [] else [(i, w, E i w)]).
Proof. unfold sp_row. rewrite seq_S, map_app, concat_app. cbn [map concat plus]. rewrite app_nil_r. reflexivity. Qed.
Lemma sp_row_nokey E w i p q : (i <> p \/ (w <= q)%nat) -> nokey p q (sp_row E w i).
Proof.
  induction w as [|w IH]; intro H; [constructor|]. rewrite sp_row_S. apply Forall_app. split; [apply IH; lia|].
  destruct (feqb (E i w) 0); repeat constructor. cbn. intro X. injection X as X1 X2. lia.
Qed.
Lemma sp_row_get E w i j : map_get K (sp_row E w i) i j = if Nat.ltb j w then E i j else 0.
Proof.
  induction w as [|w IH]; [reflexivity|]. rewrite sp_row_S. destruct (Nat.eq_dec j w) as [->|N].
  - rewrite map_get_skip by (apply sp_row_nokey; lia). destruct (Nat.ltb_spec w (S w)); [|lia]. destruct (feqb (E i w) 0) eqn:Ez.
    + apply feqb_eq in Ez. rewrite Ez. reflexivity.
    + cbn. rewrite !Nat.eqb_refl. reflexivity.
  - rewrite map_get_end by (destruct (feqb (E i w) 0); repeat constructor; cbn; intro X; injection X as X1; lia).
    rewrite IH. destruct (Nat.ltb_spec j w), (Nat.ltb_spec j (S w)); try lia; reflexivity.
Qed.
Lemma sp_nokey E n w p q : (n <= p)%nat -> nokey p q (sp E n w).
Proof.
  induction n as [|n IH]; intro H; [constructor|]. unfold sp. rewrite seq_S, map_app, concat_app. apply Forall_app. split; [apply IH; lia|].
  cbn. rewrite app_nil_r. apply sp_row_nokey. lia.
Qed.
Lemma sp_get E n w i j : map_get K (sp E n w) i j = if Nat.ltb i n then (if Nat.ltb j w then E i j else 0) else 0.
Proof.
  induction n as [|n IH]; [reflexivity|]. unfold sp. rewrite seq_S, map_app, concat_app. fold (sp E n w). cbn [map concat plus]. rewrite app_nil_r.
  destruct (Nat.eq_dec i n) as [->|N].
  - rewrite map_get_skip by (apply sp_nokey; lia). rewrite sp_row_get. destruct (Nat.ltb_spec n (S n)); [reflexivity|lia].
  - rewrite map_get_end by (apply sp_row_nokey; lia). rewrite IH. destruct (Nat.ltb_spec i n), (Nat.ltb_spec i (S n)); try lia; reflexivity.
Qed.
(** The verifier's sparse view of a matrix equals the matrix. *)
Lemma map_of_get m i j w : Forall (fun row => length row = w) m -> map_get K (map_of K m) i j = mat_at K m i j.
Proof.
  intro F. change (map_of K m) with (sp (mat_at K m) (length m) (length (nth 0 m []))).
  rewrite sp_get. destruct (Nat.ltb_spec i (length m)) as [Hi|Hi].
  - rewrite Forall_forall in F. assert (L0 : length (nth 0 m []) = w) by (apply F, nth_In; lia). rewrite L0.
    assert (Li : length (nth i m []) = w) by (apply F, nth_In; lia).
    destruct (Nat.ltb_spec j w); [reflexivity|]. unfold mat_at. symmetry. apply nth_overflow. lia.
  - unfold mat_at. rewrite (nth_overflow m) by exact Hi. destruct j; reflexivity.
Qed.

(** ** The verifier with its intermediate vectors in closed form *)
Section V.
Variables (gs : gens K G) (c : r1cs K) (y z : K).
Let n := gn K G gs. Let N := gN K G gs. Let k := gk K G gs. Let n_w := gn_w K G gs.
Definition zn : K := z ^ n.
Definition ent (i j : nat) : K := comb3 K zn (zn * zn) (map_get K (CL_T K c) i j) (map_get K (CR_T K c) i j) (map_get K (CO_T K c) i j).
Definition yi (i : nat) : K := finv (y ^ i).
Definition f_WL (i : nat) : K := if Nat.ltb i n then z ^ S i * 1 else 0.
Definition f_WR (i : nat) : K := if Nat.ltb i n then z ^ S i * zn else 0.
Definition f_WO (i : nat) : K := if Nat.ltb i n then z ^ S i * (zn * zn) else 0.
Definition f_WV (j : nat) : K := if Nat.ltb j n_w then sumn n (fun i => z ^ S i * ent i (k + j)) else 0.
Definition delta_ : K := sumn N (fun i => yi i * f_WR i * f_WL i).
Definition zQc (s : list K) : K := sumn n (fun i => z ^ S i * sumn k (fun j => ent i j * nth j s 0)).
Lemma vmap_WV : vector_map_product K (map (fun v => - (1) * v) (powers K z z n)) (sp (fun i j => ent i (k + j)%nat) n n_w) N = tab N (fun j => - f_WV j).
Proof.
  unfold vector_map_product. rewrite map_length, zQ_tab, length_tab, map_tab. apply tab_ext. intros j Hj. rewrite sumn_fsum'. unfold f_WV.
  destruct (Nat.ltb_spec j n_w) as [H|H].
  - transitivity (sumn n (fun i => - (1) * (z ^ S i * ent i (k + j)))); [|rewrite sumn_mul_l; ring].
    apply sumn_ext. intros i Hi. rewrite nth_tab by exact Hi. rewrite sp_get. destruct (Nat.ltb_spec i n), (Nat.ltb_spec j n_w); try lia. ring.
  - rewrite sumn_0; [ring|]. intros i Hi. rewrite sp_get. destruct (Nat.ltb_spec i n), (Nat.ltb_spec j n_w); try lia. ring.
Qed.
Lemma vmt_C1 s : length s = k -> vector_matrix_product_t K s (map (fun i => map (fun j => ent i j) (seq 0 k)) (seq 0 n)) = Ok (tab n (fun i => sumn k (fun j => ent i j * nth j s 0))).
Proof.
  intro L. unfold vector_matrix_product_t.
  assert (F : forallb (fun row : list K => Nat.eqb (length row) (length s)) (map (fun i => map (fun j => ent i j) (seq 0 k)) (seq 0 n)) = true).
  { apply forallb_forall. intros row I. apply in_map_iff in I. destruct I as (i & <- & _). rewrite map_length, seq_length, L. apply Nat.eqb_refl. }
  rewrite F, map_map. f_equal. unfold tab. apply map_ext. intro i.
  change (dot (tab k (ent i)) s = sumn k (fun j => ent i j * nth j s 0)). rewrite (list_tab s k L) at 1. apply dot_tab.
Qed.
Lemma vmt_C1_bad s : length s <> k -> (0 < n)%nat -> vector_matrix_product_t K s (map (fun i => map (fun j => ent i j) (seq 0 k)) (seq 0 n)) = Panic.
Proof.
  intros L Hn. unfold vector_matrix_product_t. destruct n as [|n']; [lia|]. cbn [seq map forallb].
  rewrite map_length, seq_length. assert (E : Nat.eqb k (length s) = false) by (apply Nat.eqb_neq; lia). rewrite E. reflexivity.
Qed.
End V.
(** The verifier with everything before the checks resolved. *)
Definition tr_y gs c pubs (AI AO AW S : G) : transcript K G :=
  MG "S" S :: MG "A_W" AW :: MG "A_O" AO :: MG "A_I" AI :: bp_header K G gs (gn K G gs) (gN K G gs) c (1 :: pubs).
Definition tr_x t (T2 T3 T5 T6 T7 T8 T9 T10 : G) : transcript K G :=
  MG "T_10" T10 :: MG "T_9" T9 :: MG "T_8" T8 :: MG "T_7" T7 :: MG "T_6" T6 :: MG "T_5" T5 :: MG "T_3" T3 :: MG "T_2" T2 :: MCh "z" :: MCh "y" :: t.
Definition tr_ipp t (tx taux m : K) (l r : list K) : transcript K G :=
  MFs "r_x" r :: MFs "l_x" l :: MF "mu" m :: MF "tau_x" taux :: MF "t_x" tx :: MCh "x" :: t.
Definition T_rhs (g : G) (x d : K) (T2 T3 T5 T6 T7 T8 T9 T10 : G) : G :=
  let xx := x * x in let xxxx := xx * xx in
  fold_left (@gadd K G) [gsm xx T2; gsm (xx * x) T3; gsm (xxxx * x) T5; gsm (xxxx * xx) T6;
      gsm (xxxx * (xx * x)) T7; gsm (xxxx * xxxx) T8; gsm (xxxx * (xxxx * x)) T9; gsm (xxxx * (xxxx * xx)) T10]
    (msm [g] [xxxx * d]).
Definition P_lhs gs c (y z x : K) (AI AO AW S : G) : G :=
  let N := gN K G gs in let hs := h_vec_N K G gs in
  let xx := x * x in let xxxx := xx * xx in
  fold_left (@gadd K G) [gsm (xx * x) AO; gsm xxxx AW; gsm x (msm hs (tab N (fun i => yi y i * (- (1) * (1 * y ^ i)))));
      gsm xx (msm hs (tab N (fun i => yi y i * f_WL gs z i))); gsm xx (msm (g_vec_N K G gs) (tab N (fun i => yi y i * f_WR gs z i)));
      gsm x (msm hs (tab N (fun i => yi y i * f_WO gs z i))); msm hs (tab N (fun i => yi y i * - f_WV gs c z i));
      gsm (xxxx * x) S] (gsm xx AI).
Lemma bp_verify_shape gs pf c pubs :
  (0 < gn K G gs)%nat -> (gN K G gs <= length (h_vec_N K G gs))%nat -> S (length pubs) = gk K G gs ->
  let t := tr_y gs c pubs (A_I K G pf) (A_O K G pf) (A_W K G pf) (S_ K G pf) in
  let y := ch "y"%string t in let z := ch "z"%string (MCh "y" :: t) in
  y <> 0 ->
  let t := tr_x t (T_2 K G pf) (T_3 K G pf) (T_5 K G pf) (T_6 K G pf) (T_7 K G pf) (T_8 K G pf) (T_9 K G pf) (T_10 K G pf) in
  let x := ch "x"%string t in
  let t := tr_ipp t (t_x K G pf) (tau_x K G pf) (mu K G pf) (l_x K G pf) (r_x K G pf) in
  let ux := gsm (ch "x_1"%string t) (gu K G gs) in
  bp_verify K G ch gs pf c pubs =
  rbind (ipp_verify K G ch (MCh "x_1" :: t) (g_vec_N K G gs) (h_vec_N K G gs) ux (IPP_P K G pf) (IPP K G pf)) (fun ok =>
    if negb ok then Ok false else
    if negb (geqb (msm [gg K G gs; gh K G gs] [t_x K G pf; tau_x K G pf])
       (T_rhs (gg K G gs) x (delta_ gs y z + zQc gs c z (1 :: pubs)) (T_2 K G pf) (T_3 K G pf) (T_5 K G pf) (T_6 K G pf) (T_7 K G pf) (T_8 K G pf) (T_9 K G pf) (T_10 K G pf))) then Panic else
    Ok (geqb (P_lhs gs c y z x (A_I K G pf) (A_O K G pf) (A_W K G pf) (S_ K G pf))
       (gadd (gadd (gsm (mu K G pf) (gh K G gs)) (msm (g_vec_N K G gs) (l_x K G pf)))
             (msm (map (fun '(v, p) => gsm v p) (combine (tab (gN K G gs) (yi y)) (h_vec_N K G gs))) (r_x K G pf))))).
Proof.
  intros Hn HN Hk t y z Hy t' x t'' ux. unfold bp_verify. cbv zeta. unfold quick_multiexp.
  change (MG "S" (S_ K G pf) :: MG "A_W" (A_W K G pf) :: MG "A_O" (A_O K G pf) :: MG "A_I" (A_I K G pf) :: bp_header K G gs (gn K G gs) (gN K G gs) c (1 :: pubs)) with t.
  fold y. fold z. rewrite !powers_tab.
  rewrite inv_all_tab by (intros i _ E; apply (fpow_nz K y i Hy); etransitivity; [|exact E]; ring). cbn [rbind].
  destruct (gn K G gs) as [|n1] eqn:En; [lia|].
  rewrite <- !powers_tab, !vector_product_w, !zQ_tab. rewrite nth_tab by lia. cbn [rbind].
  assert (Ez : z ^ S n1 = zn gs z) by (unfold zn; rewrite En; reflexivity). rewrite !Ez.
  set (C1 := map (fun i => map _ (seq 0 (gk K G gs))) (seq 0 (S n1))).
  assert (EC : C1 = map (fun i => map (fun j => ent gs c z i j) (seq 0 (gk K G gs))) (seq 0 (gn K G gs))) by (rewrite En; reflexivity).
  rewrite EC, vmt_C1 by (cbn [length]; exact Hk). cbn [rbind].
  set (WV := concat (map _ (seq 0 (S n1)))).
  assert (EW : WV = sp (fun i j => ent gs c z i (gk K G gs + j)%nat) (gn K G gs) (gn_w K G gs)) by (rewrite En; reflexivity).
  assert (EV : vector_map_product K (map (fun v : K => - (1) * v) (tab (S n1) (fun i => z ^ S i))) WV (gN K G gs) = tab (gN K G gs) (fun j => - f_WV gs c z j)).
  { rewrite EW, <- vmap_WV, <- zQ_tab, En. reflexivity. }
  rewrite EV. unfold wvec.
  rewrite hadamard_tab. cbn [rbind]. rewrite inner_tab. cbn [rbind].
  destruct (Nat.ltb_spec (length (h_vec_N K G gs)) (gN K G gs)) as [?|_]; [lia|].
  change (MG "T_10" (T_10 K G pf) :: MG "T_9" (T_9 K G pf) :: MG "T_8" (T_8 K G pf) :: MG "T_7" (T_7 K G pf) :: MG "T_6" (T_6 K G pf) :: MG "T_5" (T_5 K G pf) :: MG "T_3" (T_3 K G pf) :: MG "T_2" (T_2 K G pf) :: MCh "z" :: MCh "y" :: t) with t'.
  fold x.
  change (MFs "r_x" (r_x K G pf) :: MFs "l_x" (l_x K G pf) :: MF "mu" (mu K G pf) :: MF "tau_x" (tau_x K G pf) :: MF "t_x" (t_x K G pf) :: MCh "x" :: t') with t''.
  fold ux.
  destruct (ipp_verify K G ch (MCh "x_1" :: t'') (g_vec_N K G gs) (h_vec_N K G gs) ux (IPP_P K G pf) (IPP K G pf)) as [[]| |]; cbn [rbind negb]; try reflexivity.
  rewrite En, inner_tab. cbn [rbind].
  assert (Y1 : tab (gN K G gs) (fun i => finv (1 * y ^ i)) = tab (gN K G gs) (yi y)) by (apply tab_ext; intros i _; unfold yi; f_equal; ring).
  rewrite Y1. unfold T_rhs, P_lhs.
  rewrite powers_tab, !map_tab, !msm_scaled by exact HN.
  assert (D : sumn (gN K G gs) (fun i : nat => finv (1 * y ^ i) * (if Nat.ltb i (S n1) then z ^ S i * zn gs z else 0) * (if Nat.ltb i (S n1) then z ^ S i * 1 else 0)) = delta_ gs y z).
  { unfold delta_, f_WR, f_WL. rewrite En. apply sumn_ext. intros i _. unfold yi. replace (1 * y ^ i) with (y ^ i) by ring. reflexivity. }
  rewrite D.
  assert (Z : sumn (S n1) (fun i => z ^ S i * sumn (gk K G gs) (fun j => ent gs c z i j * nth j (1 :: pubs) 0)) = zQc gs c z (1 :: pubs)) by (unfold zQc; rewrite En; reflexivity).
  rewrite Z. unfold f_WL, f_WR, f_WO. rewrite En.
  assert (R : tab (gN K G gs) (fun i => finv (1 * y ^ i) * (if Nat.ltb i (S n1) then z ^ S i * zn gs z else 0)) = tab (gN K G gs) (fun i => yi y i * (if Nat.ltb i (S n1) then z ^ S i * zn gs z else 0))).
  { apply tab_ext; intros i _. unfold yi. replace (1 * y ^ i) with (y ^ i) by ring. reflexivity. }
  rewrite R. reflexivity.
Qed.
(** ** Forged proofs *)
Definition null_ipp : ipp K G := mkIpp K G [] [] 0 0.
Lemma null_ipp_ok t g h u : ipp_verify K G ch t g h u g0 null_ipp = Ok true.
Proof.
  unfold ipp_verify, null_ipp. cbn [L_vec R_vec ip_a ip_b length Nat.eqb negb ipp_challenges rbind map fold_left s_vec Nat.pow Nat.sub seq rev app].
  unfold quick_multiexp. f_equal. apply geqb_eq. destruct g as [|g1 g], h as [|h1 h]; cbn [msm]; rewrite ?msm_nil_r; gmod; ring.
Qed.
(** The proof below contains no information about any witness: all commitments are multiples of h. *)
Definition forge gs c pubs (al e : K) : bproof K G :=
  let AI := gsm al (gh K G gs) in
  let t := tr_y gs c pubs AI g0 g0 g0 in
  let y := ch "y"%string t in let z := ch "z"%string (MCh "y" :: t) in
  let x := ch "x"%string (tr_x t g0 g0 g0 g0 g0 g0 g0 g0) in
  let N := gN K G gs in
  let xx := x * x in
  mkBP K G AI g0 g0 g0 g0 g0 g0 g0 g0 g0 g0 g0 (al * xx) 0
    (tab N (fun i => xx * (yi y i * f_WR gs z i)))
    (tab N (fun i => x * (- (1) * (1 * y ^ i)) + (xx * f_WL gs z i + (x * f_WO gs z i + - f_WV gs c z i))))
    (xx * xx * (delta_ gs y z + zQc gs c z (1 :: pubs)) + e) null_ipp g0.
Lemma forge_run gs c pubs al e : (0 < gn K G gs)%nat -> (gN K G gs <= length (h_vec_N K G gs))%nat -> S (length pubs) = gk K G gs ->
  ch "y"%string (tr_y gs c pubs (gsm al (gh K G gs)) g0 g0 g0) <> 0 ->
  bp_verify K G ch gs (forge gs c pubs al e) c pubs = if geqb (gsm e (gg K G gs)) g0 then Ok true else Panic.
Proof.
  intros Hn HN Hk Hy. rewrite bp_verify_shape by assumption. cbn [A_I A_O A_W S_ T_2 T_3 T_5 T_6 T_7 T_8 T_9 T_10 mu tau_x l_x r_x t_x IPP IPP_P forge].
  rewrite null_ipp_ok. cbn [rbind negb].
  set (t := tr_y gs c pubs (gsm al (gh K G gs)) g0 g0 g0) in *. set (y := ch "y"%string t) in *. set (z := ch "z"%string (MCh "y" :: t)).
  set (x := ch "x"%string (tr_x t g0 g0 g0 g0 g0 g0 g0 g0)). set (D := delta_ gs y z + zQc gs c z (1 :: pubs)).
  assert (ET : geqb (msm [gg K G gs; gh K G gs] [x * x * (x * x) * D + e; 0]) (T_rhs (gg K G gs) x D g0 g0 g0 g0 g0 g0 g0 g0) = geqb (gsm e (gg K G gs)) g0).
  { unfold T_rhs. cbn [msm fold_left].
    assert (Q : forall X : G, X = gadd (gsm (x * x * (x * x) * D) (gg K G gs)) (gsm e (gg K G gs)) -> geqb X (gsm (x * x * (x * x) * D) (gg K G gs)) = geqb (gsm e (gg K G gs)) g0).
    { intros X ->. destruct (geqb_spec _ _ (gsm e (gg K G gs)) g0) as [E|E]; [rewrite E, gadd_0r; apply geqb_refl|].
      apply geqb_neq. intro H. apply E. rewrite <- (gadd_0r _ _ (gsm (x * x * (x * x) * D) (gg K G gs))) in H at 2. apply gadd_cancel in H. exact H. }
    etransitivity; [|apply Q; reflexivity]. f_equal; gmod; ring. }
  rewrite ET. destruct (geqb (gsm e (gg K G gs)) g0); cbn [negb]; [|reflexivity]. f_equal. apply geqb_eq.
  rewrite msm_scaled by exact HN. unfold P_lhs. cbn [fold_left].
  rewrite (tab_ext (gN K G gs) (fun i => yi y i * (x * (- (1) * (1 * y ^ i)) + (x * x * f_WL gs z i + (x * f_WO gs z i + - f_WV gs c z i))))
     (fun i => x * (yi y i * (- (1) * (1 * y ^ i))) + (x * x * (yi y i * f_WL gs z i) + (x * (yi y i * f_WO gs z i) + yi y i * - f_WV gs c z i)))) by (intros; ring).
  rewrite (msm_tab_add _ _ (fun i => x * (yi y i * (- (1) * (1 * y ^ i))))), (msm_tab_add _ _ (fun i => x * x * (yi y i * f_WL gs z i))), (msm_tab_add _ _ (fun i => x * (yi y i * f_WO gs z i))).
  rewrite !msm_tab_mul. gmod; ring.
Qed.
Theorem bp_forgery gs c pubs al : (0 < gn K G gs)%nat -> (gN K G gs <= length (h_vec_N K G gs))%nat -> S (length pubs) = gk K G gs ->
  ch "y"%string (tr_y gs c pubs (gsm al (gh K G gs)) g0 g0 g0) <> 0 -> bp_verify K G ch gs (forge gs c pubs al 0) c pubs = Ok true.
Proof. intros. rewrite forge_run by assumption. rewrite gsm_0, geqb_refl. reflexivity. Qed.
(** A proof on which verification panics instead of returning false. *)
Theorem bp_panics gs c pubs al : (0 < gn K G gs)%nat -> (gN K G gs <= length (h_vec_N K G gs))%nat -> S (length pubs) = gk K G gs ->
  gg K G gs <> g0 -> ch "y"%string (tr_y gs c pubs (gsm al (gh K G gs)) g0 g0 g0) <> 0 -> bp_verify K G ch gs (forge gs c pubs al 1) c pubs = Panic.
Proof. intros Hn HN Hk Hg Hy. rewrite forge_run by assumption. rewrite gsm_1. apply geqb_neq in Hg. rewrite Hg. reflexivity. Qed.
(** A wrong number of public inputs panics. *)
Theorem bp_arity gs pf c pubs : S (length pubs) <> gk K G gs -> bp_verify K G ch gs pf c pubs = Panic.
Proof.
  intro Hk. unfold bp_verify. destruct (inv_all K _) as [v| |] eqn:E; cbn [rbind]; try reflexivity; [|unfold inv_all in E; destruct (existsb _ _); discriminate].
  destruct (gn K G gs) as [|n1] eqn:En; [reflexivity|]. cbv zeta. set (z := ch "z"%string _). rewrite !zQ_tab, nth_tab by lia.
  set (C1 := map (fun i => map _ (seq 0 (gk K G gs))) (seq 0 (S n1))).
  assert (EC : C1 = map (fun i => map (fun j => ent gs c z i j) (seq 0 (gk K G gs))) (seq 0 (gn K G gs))).
  { unfold C1, ent, zn. rewrite En. reflexivity. }
  rewrite EC, vmt_C1_bad; [reflexivity|exact Hk|]. rewrite En. lia.
Qed.
End P.
