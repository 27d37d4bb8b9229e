From Verif Require Import Field ModelLC SpecLC.
From Coq Require Import Sorting.Sorted Permutation.
Local Open Scope nat_scope.

Lemma var_cmp_eq a b : var_cmp a b = Eq <-> a = b.
Proof.
  destruct a, b; cbn; split; intro H; try discriminate; try (inversion H; subst);
    try (apply Nat.compare_eq_iff in H; congruence); apply Nat.compare_refl.
Qed.
Lemma var_cmp_refl a : var_cmp a a = Eq.
Proof. apply var_cmp_eq. reflexivity. Qed.
Lemma var_eq_dec (a b : var) : {a = b} + {a <> b}.
Proof. destruct (var_cmp a b) eqn:E; [left; apply var_cmp_eq; exact E|right..];
  intro H; apply var_cmp_eq in H; congruence. Qed.
Lemma var_cmp_lt a b : var_cmp a b = Lt -> var_le a b.
Proof.
  destruct a as [i|i], b as [j|j]; unfold var_le; cbn; intro H; try discriminate; try lia;
  apply Nat.compare_lt_iff in H; lia.
Qed.
Lemma var_cmp_gt a b : var_cmp a b = Gt -> var_le b a.
Proof.
  destruct a as [i|i], b as [j|j]; unfold var_le; cbn; intro H; try discriminate; try lia;
  apply Nat.compare_gt_iff in H; lia.
Qed.
Lemma var_cmp_lt_gt a b : var_cmp a b = Lt <-> var_cmp b a = Gt.
Proof.
  destruct a as [i|i], b as [j|j]; cbn; split; intro H; try discriminate; try reflexivity;
  rewrite ?Nat.compare_lt_iff, ?Nat.compare_gt_iff in *; lia.
Qed.
Lemma var_le_refl a : var_le a a.
Proof. destruct a; unfold var_le; cbn; lia. Qed.
Lemma var_le_trans a b c : var_le a b -> var_le b c -> var_le a c.
Proof. destruct a, b, c; unfold var_le; cbn; lia. Qed.
Lemma var_le_lt a b c : var_le a b -> var_cmp b c = Lt -> var_cmp a c = Lt.
Proof.
  destruct a, b, c; unfold var_le; cbn; rewrite ?Nat.compare_lt_iff; intros; try reflexivity;
    try discriminate; try lia.
Qed.
Lemma var_gt_le a b c : var_cmp a c = Gt -> var_le a b -> var_cmp b c = Gt.
Proof.
  destruct a, b, c; unfold var_le; cbn; rewrite ?Nat.compare_gt_iff; intros; try reflexivity;
    try discriminate; try lia.
Qed.

(** ** binary search contract *)
Lemma bsearch_loop_found {A} fuel (l : list (var * A)) v lo hi i :
  bsearch_loop fuel l v lo hi = inl i -> exists c, nth_error l i = Some (v, c).
Proof.
  revert lo hi. induction fuel as [|fuel IH]; intros lo hi; cbn [bsearch_loop]; [intro H; discriminate H|].
  destruct (Nat.ltb lo hi); [|intro H; discriminate H].
  destruct (nth_error l (lo + Nat.div (hi - lo) 2)) as [[w c]|] eqn:E; [|intro H; discriminate H].
  destruct (var_cmp w v) eqn:C; intro H.
  - injection H as H. subst. apply var_cmp_eq in C. subst. eauto.
  - eauto.
  - eauto.
Qed.
Lemma bsearch_found {A} (l : list (var * A)) v i :
  bsearch l v = inl i -> exists c, nth_error l i = Some (v, c).
Proof. apply bsearch_loop_found. Qed.

Lemma bsearch_loop_absent {A} fuel (l : list (var * A)) v lo hi i :
  ordered l -> lo <= hi <= length l -> hi - lo <= fuel ->
  (forall k w c, k < lo -> nth_error l k = Some (w, c) -> var_cmp w v = Lt) ->
  (forall k w c, hi <= k -> nth_error l k = Some (w, c) -> var_cmp w v = Gt) ->
  bsearch_loop fuel l v lo hi = inr i ->
  i <= length l /\
  (forall k w c, k < i -> nth_error l k = Some (w, c) -> var_cmp w v = Lt) /\
  (forall k w c, i <= k -> nth_error l k = Some (w, c) -> var_cmp w v = Gt).
Proof.
  intro S. revert lo hi. induction fuel as [|fuel IH]; intros lo hi B F HL HR; cbn [bsearch_loop].
  - intro H. injection H as H. subst. assert (i = hi) by lia. subst. repeat split; auto; lia.
  - destruct (Nat.ltb_spec lo hi) as [L|L].
    2:{ intro H. injection H as H. subst. assert (i = hi) by lia. subst. repeat split; auto; lia. }
    set (mid := lo + Nat.div (hi - lo) 2).
    assert (lo <= mid < hi) as M.
    { unfold mid. pose proof (Nat.div_lt (hi - lo) 2 ltac:(lia) ltac:(lia)). lia. }
    destruct (nth_error l mid) as [[w c]|] eqn:E.
    2:{ apply nth_error_None in E. lia. }
    assert (forall k k' w w' c c', k <= k' -> nth_error l k = Some (w, c) ->
       nth_error l k' = Some (w', c') -> var_le w w') as Mono.
    { clear - S. induction S as [|[x cx] l S IH Hx]; intros k k' w w' c c' Hk E E'.
      - destruct k; discriminate.
      - destruct k, k'; cbn in *; try lia.
        + replace w' with w by congruence. apply var_le_refl.
        + apply nth_error_In in E'. rewrite Forall_forall in Hx. specialize (Hx _ E').
          cbn in Hx. replace w with x by congruence. exact Hx.
        + eapply IH with (k := k) (k' := k'); eauto. lia. }
    destruct (var_cmp w v) eqn:C.
    + intro H; discriminate H.
    + apply IH; [lia|lia| |exact HR].
      intros k w' c' Hk E'. eapply var_le_lt; [|exact C].
      eapply Mono; [|exact E'|exact E]. lia.
    + apply IH; [lia|lia|exact HL|].
      intros k w' c' Hk E'. eapply var_gt_le; [exact C|].
      eapply Mono; [|exact E|exact E']. lia.
Qed.
Lemma bsearch_absent {A} (l : list (var * A)) v i : ordered l -> bsearch l v = inr i ->
  (forall k w c, k < i -> nth_error l k = Some (w, c) -> var_cmp w v = Lt) /\
  (forall k w c, i <= k -> nth_error l k = Some (w, c) -> var_cmp w v = Gt).
Proof.
  intros S H. unfold bsearch in H. apply bsearch_loop_absent in H; auto; try lia.
  - tauto.
  - intros k w c Hk E. assert (k < length l) by (apply nth_error_Some; congruence). lia.
Qed.

Section P.
Variable K : Fld.
Local Open Scope fld_scope.
Add Field Kf : (f_laws K).
Implicit Types (l m : lc K) (a : var -> K).

Lemma eval_nil a : eval a [] = 0. Proof. reflexivity. Qed.
Lemma eval_cons a v c l : eval a ((v, c) :: l) = c * a v + eval a l.
Proof. reflexivity. Qed.
Lemma eval_app a l m : eval a (l ++ m) = eval a l + eval a m.
Proof. unfold eval. rewrite map_app, fsum_app. reflexivity. Qed.
Lemma eval_map a (f : K -> K) s l : (forall c, f c = s * c) ->
  eval a (map (fun '(v, c) => (v, f c)) l) = s * eval a l.
Proof.
  intro H. induction l as [|[v c] l IH]; cbn [map].
  - rewrite !eval_nil. ring.
  - rewrite !eval_cons, IH, H. ring.
Qed.

Lemma eval_insert a i v c l : eval a (insert_at i (v, c) l) = eval a l + c * a v.
Proof.
  unfold insert_at. rewrite eval_app, eval_cons.
  rewrite <- (firstn_skipn i l) at 3. rewrite eval_app. ring.
Qed.
Lemma eval_upd a i v c d l : nth_error l i = Some (v, d) ->
  eval a (upd_at i (fun '(w, e) => (w, e + c)) l) = eval a l + c * a v.
Proof.
  revert i. induction l as [|[w e] l IH]; intros [|i] H; cbn in H; try discriminate;
    cbn [upd_at]; rewrite ?eval_cons.
  - injection H as -> ->. ring.
  - rewrite (IH _ H). ring.
Qed.

Lemma eval_zero a : eval a lc_zero = 0. Proof. reflexivity. Qed.
Lemma eval_of a c v : eval a (lc_of c v) = c * a v.
Proof. unfold lc_of. rewrite eval_cons, eval_nil. ring. Qed.
Lemma eval_var a v : eval a (lc_var v) = a v.
Proof. unfold lc_var. rewrite eval_cons, eval_nil. ring. Qed.
Lemma eval_neg a l : eval a (lc_neg l) = - eval a l.
Proof. unfold lc_neg. rewrite (eval_map a _ (- (1))); [ring|intro; ring]. Qed.
Lemma eval_double a l : eval a (lc_double l) = eval a l + eval a l.
Proof. unfold lc_double. rewrite (eval_map a _ (1 + 1)); [ring|intro; ring]. Qed.
Lemma eval_scale a l s : eval a (lc_scale l s) = eval a l * s.
Proof. unfold lc_scale. rewrite (eval_map a _ s); [ring|intro; ring]. Qed.
Lemma eval_add_term a l c v : eval a (lc_add_term l c v) = eval a l + c * a v.
Proof.
  unfold lc_add_term, get_var_loc. destruct (Nat.ltb _ _).
  - apply eval_insert.
  - destruct (bsearch l v) as [i|i] eqn:E.
    + apply bsearch_found in E. destruct E as [d E]. eapply eval_upd. exact E.
    + apply eval_insert.
Qed.
Lemma eval_sub_term a l c v : eval a (lc_sub_term l c v) = eval a l - c * a v.
Proof. unfold lc_sub_term. rewrite eval_add_term. ring. Qed.
Lemma eval_add_var a l v : eval a (lc_add_var l v) = eval a l + a v.
Proof. unfold lc_add_var. rewrite eval_add_term. ring. Qed.
Lemma eval_sub_var a l v : eval a (lc_sub_var l v) = eval a l - a v.
Proof. unfold lc_sub_var. rewrite eval_sub_term. ring. Qed.

Lemma lc_merge_nil_l push comb m : lc_merge (K:=K) push comb [] m = map (fun '(v, c) => (v, push c)) m.
Proof. destruct m; reflexivity. Qed.
Lemma lc_merge_nil_r push comb l : lc_merge (K:=K) push comb l [] = l.
Proof. destruct l as [|[v c] l]; reflexivity. Qed.
Lemma lc_merge_cons push comb v c l w d m :
  lc_merge (K:=K) push comb ((v, c) :: l) ((w, d) :: m) =
  match var_cmp v w with
  | Gt => (w, push d) :: lc_merge push comb ((v, c) :: l) m
  | Lt => (v, c) :: lc_merge push comb l ((w, d) :: m)
  | Eq => (v, comb c d) :: lc_merge push comb l m
  end.
Proof. reflexivity. Qed.

Lemma eval_merge a push comb s l m :
  (forall c, push c = s * c) -> (forall c d, comb c d = c + s * d) ->
  eval a (lc_merge push comb l m) = eval a l + s * eval a m.
Proof.
  intros Hp Hc. revert m. induction l as [|[v c] l IHl]; intro m.
  - rewrite lc_merge_nil_l, (eval_map a push s) by exact Hp. rewrite eval_nil. ring.
  - induction m as [|[w d] m IHm].
    + rewrite lc_merge_nil_r, eval_nil. ring.
    + rewrite lc_merge_cons. destruct (var_cmp v w) eqn:E.
      * apply var_cmp_eq in E. subst w. rewrite !eval_cons, IHl, Hc. ring.
      * rewrite eval_cons, IHl, !eval_cons. ring.
      * rewrite eval_cons, IHm, !eval_cons, Hp. ring.
Qed.
Lemma eval_add a l m : eval a (lc_add l m) = eval a l + eval a m.
Proof.
  unfold lc_add. destruct m as [|y m]; [rewrite eval_nil; ring|].
  destruct l as [|x l]; [rewrite eval_nil; ring|].
  rewrite (eval_merge a _ _ 1); intros; ring.
Qed.
Lemma eval_sub a l m : eval a (lc_sub l m) = eval a l - eval a m.
Proof.
  unfold lc_sub. destruct m as [|y m]; [rewrite eval_nil; ring|].
  destruct l as [|x l]; [rewrite eval_neg, eval_nil; ring|].
  rewrite (eval_merge a _ _ (- (1))); intros; ring.
Qed.
Lemma eval_add_scaled a l s m : eval a (lc_add_scaled l s m) = eval a l + s * eval a m.
Proof.
  unfold lc_add_scaled. destruct m as [|y m]; [rewrite eval_nil; ring|].
  destruct l as [|x l]; [rewrite eval_scale, eval_nil; ring|].
  rewrite (eval_merge a _ _ s); intros; ring.
Qed.
Lemma eval_sub_scaled a l s m : eval a (lc_sub_scaled l s m) = eval a l - s * eval a m.
Proof. unfold lc_sub_scaled. rewrite eval_add_scaled. ring. Qed.

(** ConstraintVar *)
Lemma ceval_lc a x : eval a (cvar_lc K x) = ceval a x.
Proof. destruct x; cbn [cvar_lc ceval]; [reflexivity|apply eval_var]. Qed.
Lemma ceval_start a x : eval a (cvar_start K x) = ceval a x.
Proof. destruct x; cbn [cvar_start ceval]; [reflexivity|rewrite eval_add_var, eval_zero; ring]. Qed.
Lemma ceval_of_term a c v : ceval a (cvar_of_term K c v) = c * a v.
Proof. cbn. apply eval_of. Qed.
Lemma ceval_of_scaled a c x : ceval a (cvar_of_scaled K c x) = c * ceval a x.
Proof. destruct x; cbn [cvar_of_scaled cvar_of_scaled_lc cvar_of_term ceval];
  [rewrite eval_scale; ring|apply eval_of]. Qed.
Lemma ceval_neg a x : ceval a (cvar_neg K x) = - ceval a x.
Proof. destruct x; cbn [cvar_neg cvar_of_term ceval]; [apply eval_neg|rewrite eval_of; ring]. Qed.
Lemma ceval_double a x : ceval a (cvar_double K x) = ceval a x + ceval a x.
Proof. destruct x; cbn [cvar_double cvar_of_term ceval]; [apply eval_double|rewrite eval_of; ring]. Qed.
Lemma ceval_mul a x s : ceval a (cvar_mul K x s) = ceval a x * s.
Proof. destruct x; cbn [cvar_mul cvar_of_term ceval]; [apply eval_scale|rewrite eval_of; ring]. Qed.
Lemma ceval_add_lc a x o : eval a (cvar_add_lc K x o) = ceval a x + eval a o.
Proof. destruct x; cbn [cvar_add_lc ceval]; rewrite ?eval_add, ?eval_add_var; ring. Qed.
Lemma ceval_sub_lc a x o : eval a (cvar_sub_lc K x o) = ceval a x - eval a o.
Proof. unfold cvar_sub_lc. rewrite eval_neg. destruct x; cbn [ceval]; rewrite ?eval_sub, ?eval_sub_var; ring. Qed.
Lemma ceval_add_term a x c v : ceval a (cvar_add_term K x c v) = ceval a x + c * a v.
Proof. destruct x; cbn [cvar_add_term ceval]; rewrite eval_add_term, ?eval_var; ring. Qed.
Lemma ceval_sub_term a x c v : ceval a (cvar_sub_term K x c v) = ceval a x - c * a v.
Proof. unfold cvar_sub_term. rewrite ceval_add_term. ring. Qed.
Lemma ceval_add a x y : ceval a (cvar_add K x y) = ceval a x + ceval a y.
Proof. destruct y; cbn [cvar_add ceval]; rewrite ?eval_add, ?eval_add_var, ceval_lc; ring. Qed.
Lemma ceval_sub a x y : ceval a (cvar_sub K x y) = ceval a x - ceval a y.
Proof. destruct y; cbn [cvar_sub ceval]; rewrite ?eval_sub, ?eval_sub_var, ceval_lc; ring. Qed.
Lemma ceval_add_rr a x y : ceval a (cvar_add_rr K x y) = ceval a x + ceval a y.
Proof. unfold cvar_add_rr. rewrite !ceval_add. cbn. unfold eval; cbn. ring. Qed.
Lemma ceval_sub_rr a x y : ceval a (cvar_sub_rr K x y) = ceval a x - ceval a y.
Proof. unfold cvar_sub_rr. rewrite ceval_sub, ceval_add. cbn. unfold eval; cbn. ring. Qed.
Lemma ceval_add_scaled a x c y : ceval a (cvar_add_scaled K x c y) = ceval a x + c * ceval a y.
Proof. destruct y; cbn [cvar_add_scaled ceval]; rewrite ?eval_add_scaled, ?eval_add_term, ceval_start; ring. Qed.
Lemma ceval_sub_scaled a x c y : ceval a (cvar_sub_scaled K x c y) = ceval a x - c * ceval a y.
Proof. destruct y; cbn [cvar_sub_scaled ceval]; rewrite ?eval_sub_scaled, ?eval_sub_term, ceval_start; ring. Qed.

(** ** order *)
Lemma ordered_map (f : K -> K) l : ordered l -> ordered (map (fun '(v, c) => (v, f c)) l).
Proof.
  induction 1 as [|[v c] l S IH H]; cbn; constructor; [exact IH|].
  rewrite Forall_forall in *. intros [w d] I. apply in_map_iff in I. destruct I as ([w' d'] & E & I).
  injection E as <- <-. exact (H _ I).
Qed.
Lemma ordered_upd f l i : ordered l -> (forall t, fst (f t) = fst t) -> ordered (upd_at i f l : lc K).
Proof.
  intros S Hf. revert i. induction S as [|t l S IH H]; intro i; cbn.
  - constructor.
  - destruct i as [|i]; constructor; try exact S; try (apply IH).
    + rewrite Forall_forall in H. apply Forall_forall. intros u I. rewrite Hf. auto.
    + assert (forall u, In u (upd_at i f l) -> exists u', In u' l /\ fst u = fst u') as A.
      { clear - Hf. revert i. induction l as [|x l IH]; intros [|i] u; cbn; try tauto.
        - intros [<-|I]; [exists x; auto|exists u; auto].
        - intros [<-|I]; [exists x; auto|]. destruct (IH _ _ I) as (u' & J & E). eauto. }
      rewrite Forall_forall in H. apply Forall_forall. intros u I. destruct (A u I) as (u' & J & E). rewrite E. auto.
Qed.
Lemma ordered_app l m : ordered l -> ordered m ->
  (forall s t, In s l -> In t m -> var_le (fst s) (fst t)) -> ordered (l ++ m : lc K).
Proof.
  intros S T H. induction S as [|x l S IH F]; cbn; [exact T|]. constructor.
  - apply IH. intros; apply H; cbn; auto.
  - rewrite Forall_forall in *. intros t I. apply in_app_or in I. destruct I as [I|I]; auto.
    apply H; cbn; auto.
Qed.
Lemma ordered_split l i : ordered l -> ordered (firstn i l : lc K) /\ ordered (skipn i l : lc K).
Proof.
  intro S. revert i. induction S as [|x l S IH F]; intro i.
  - rewrite firstn_nil, skipn_nil. split; constructor.
  - destruct i as [|i]; cbn; split; try constructor; auto; try (apply IH).
    rewrite Forall_forall in *. intros t I. apply F.
    rewrite <- (firstn_skipn i l). apply in_or_app. auto.
Qed.
Lemma ordered_insert l i v c : ordered l ->
  (forall k w d, (k < i)%nat -> nth_error l k = Some (w, d) -> var_le w v) ->
  (forall k w d, (i <= k)%nat -> nth_error l k = Some (w, d) -> var_le v w) ->
  ordered (insert_at i (v, c) l : lc K).
Proof.
  intros S HL HR. unfold insert_at. destruct (ordered_split l i S) as [S1 S2].
  assert (forall t, In t (firstn i l) -> var_le (fst t) v) as A.
  { intros [w d] I. apply In_nth_error in I. destruct I as [k E].
    assert (k < i)%nat as Hk.
    { assert (k < length (firstn i l))%nat by (apply nth_error_Some; congruence).
      rewrite firstn_length in *. lia. }
    apply (HL k w d Hk). rewrite <- E. symmetry.
    rewrite <- (firstn_skipn i l) at 2. rewrite nth_error_app1; [reflexivity|].
    apply nth_error_Some. congruence. }
  assert (forall t, In t (skipn i l) -> var_le v (fst t)) as B.
  { intros [w d] I. apply In_nth_error in I. destruct I as [k E].
    assert (i <= length l)%nat as Hi.
    { destruct (Nat.le_gt_cases i (length l)); [assumption|].
      rewrite skipn_all2 in E by lia. destruct k; discriminate. }
    apply (HR (i + k)%nat w d); [lia|].
    rewrite <- E. rewrite <- (firstn_skipn i l) at 1.
    rewrite nth_error_app2; rewrite firstn_length; [f_equal; lia|lia]. }
  apply ordered_app; [exact S1| |].
  - constructor; [exact S2|]. apply Forall_forall. exact B.
  - intros s t I [<-|J]; cbn; [apply A; exact I|].
    eapply var_le_trans; [apply A; exact I|apply B; exact J].
Qed.
Lemma scan_spec l v : ordered l ->
  (forall k w d, (k < scan l v)%nat -> nth_error l k = Some (w, d) -> var_le w v) /\
  (forall k w d, (scan l v <= k)%nat -> nth_error l k = Some (w, d) -> var_le v w).
Proof.
  induction 1 as [|[x e] l S IH F]; cbn [scan].
  - split; intros k w d _ E; destruct k; discriminate.
  - destruct IH as [IH1 IH2]. destruct (var_cmp x v) eqn:C.
    + split; [lia|]. apply var_cmp_eq in C. subst x. intros [|k] w d _ E; cbn in E.
      * injection E as <- <-. apply var_le_refl.
      * rewrite Forall_forall in F. apply nth_error_In in E. exact (F _ E).
    + split.
      * intros [|k] w d Hk E; cbn in E; [injection E as <- <-; apply var_cmp_lt; exact C|].
        apply (IH1 k w d); [lia|exact E].
      * intros [|k] w d Hk E; cbn in E; [lia|]. apply (IH2 k w d); [lia|exact E].
    + split; [lia|]. apply var_cmp_gt in C. intros [|k] w d _ E; cbn in E.
      * injection E as <- <-. exact C.
      * rewrite Forall_forall in F. apply nth_error_In in E.
        eapply var_le_trans; [exact C|]. exact (F _ E).
Qed.
Lemma ordered_add_term l c v : ordered l -> ordered (lc_add_term l c v).
Proof.
  intro S. unfold lc_add_term, get_var_loc. destruct (Nat.ltb _ _).
  - destruct (scan_spec l v S). apply ordered_insert; assumption.
  - destruct (bsearch l v) as [i|i] eqn:E.
    + apply ordered_upd; [exact S|]. intros [w d]. reflexivity.
    + destruct (bsearch_absent l v i S E) as [HL HR]. apply ordered_insert; [exact S| |].
      * intros k w d Hk En. apply var_cmp_lt. exact (HL k w d Hk En).
      * intros k w d Hk En. apply var_cmp_gt. exact (HR k w d Hk En).
Qed.
Lemma merge_vars push comb l m t : In t (lc_merge (K:=K) push comb l m) ->
  (exists u, In u l /\ fst u = fst t) \/ (exists u, In u m /\ fst u = fst t).
Proof.
  revert m. induction l as [|[v c] l IHl]; intro m.
  - rewrite lc_merge_nil_l, in_map_iff. intros ([w d] & E & I). right. exists (w, d).
    split; [exact I|]. subst; reflexivity.
  - induction m as [|[w d] m IHm].
    + rewrite lc_merge_nil_r. intro I. left. eauto.
    + rewrite lc_merge_cons. destruct (var_cmp v w); cbn [In]; intros [<-|I].
      * left. exists (v, c). cbn; auto.
      * destruct (IHl _ I) as [(u & J & E)|(u & J & E)]; [left|right]; exists u; cbn; auto.
      * left. exists (v, c). cbn; auto.
      * destruct (IHl _ I) as [(u & J & E)|(u & J & E)]; [left|right]; exists u; cbn; auto.
      * right. exists (w, d). cbn; auto.
      * destruct (IHm I) as [(u & J & E)|(u & J & E)]; [left|right]; exists u; cbn; auto.
Qed.
Lemma ordered_merge push comb l m : ordered l -> ordered m -> ordered (lc_merge (K:=K) push comb l m).
Proof.
  intro S. revert m. induction S as [|[v c] l S IHl F]; intros m T.
  - rewrite lc_merge_nil_l. apply ordered_map. exact T.
  - induction T as [|[w d] m T IHm G].
    + rewrite lc_merge_nil_r. constructor; assumption.
    + rewrite lc_merge_cons. rewrite Forall_forall in F, G.
      destruct (var_cmp v w) eqn:C; constructor.
      * apply IHl. exact T.
      * apply var_cmp_eq in C. subst w. apply Forall_forall. intros t I. cbn.
        apply merge_vars in I. destruct I as [(u & J & <-)|(u & J & <-)]; [apply F|apply G]; exact J.
      * apply IHl. constructor; [exact T|]. apply Forall_forall; exact G.
      * apply var_cmp_lt in C. apply Forall_forall. intros t I. cbn.
        apply merge_vars in I. destruct I as [(u & J & <-)|(u & J & <-)]; [apply F; exact J|].
        destruct J as [<-|J]; [exact C|]. eapply var_le_trans; [exact C|]. apply (G _ J).
      * exact IHm.
      * apply var_cmp_gt in C. apply Forall_forall. intros t I. cbn.
        apply merge_vars in I. destruct I as [(u & J & <-)|(u & J & <-)]; [|apply (G _ J)].
        destruct J as [<-|J]; [exact C|]. eapply var_le_trans; [exact C|]. apply (F _ J).
Qed.
Lemma built_ordered l : built l -> ordered l.
Proof.
  induction 1 as [|c v|v|l _ IH|l _ IH|l s _ IH|l c v _ IH|l c v _ IH|l v _ IH|l v _ IH
                 |l m _ IH _ IH2|l m _ IH _ IH2|l s m _ IH _ IH2|l s m _ IH _ IH2].
  - constructor.
  - repeat constructor.
  - repeat constructor.
  - apply ordered_map; exact IH.
  - apply ordered_map; exact IH.
  - apply (ordered_map (fun c => c * s)); exact IH.
  - apply ordered_add_term; exact IH.
  - apply ordered_add_term; exact IH.
  - apply ordered_add_term; exact IH.
  - apply ordered_add_term; exact IH.
  - unfold lc_add. destruct m; [exact IH|]. destruct l; [exact IH2|]. apply ordered_merge; assumption.
  - unfold lc_sub. destruct m; [exact IH|]. destruct l; [apply ordered_map; exact IH2|]. apply ordered_merge; assumption.
  - unfold lc_add_scaled. destruct m; [exact IH|]. destruct l; [apply (ordered_map (fun c => c * s)); exact IH2|]. apply ordered_merge; assumption.
  - unfold lc_sub_scaled, lc_add_scaled. destruct m; [exact IH|]. destruct l; [apply (ordered_map (fun c => c * - s)); exact IH2|]. apply ordered_merge; assumption.
Qed.

(** ** short combinations keep duplicates (C03) *)
Lemma var_eqb_refl v : var_eqb v v = true.
Proof. destruct v; apply Nat.eqb_refl. Qed.
Lemma short_add_occ l c v : (length l < 6)%nat ->
  length (lc_add_term l c v) = S (length l) /\
  Permutation (lc_add_term l c v) ((v, c) :: l) /\
  Permutation (occurrences v (lc_add_term l c v)) (c :: occurrences v l).
Proof.
  intro H. unfold lc_add_term, get_var_loc. destruct (Nat.ltb_spec (length l) 6) as [_|]; [|lia].
  set (i := scan l v).
  assert (Permutation (insert_at i (v, c) l) ((v, c) :: l)) as P.
  { unfold insert_at. rewrite <- Permutation_middle. apply perm_skip. rewrite firstn_skipn. apply Permutation_refl. }
  split; [apply Permutation_length in P; exact P|]. split; [exact P|].
  unfold occurrences.
  assert (forall l m : lc K, Permutation l m -> Permutation (filter (fun t => var_eqb (fst t) v) l) (filter (fun t => var_eqb (fst t) v) m)) as F.
  { clear. intros l m P. induction P as [|x l m P IH|x y l|l m n P IH P2 IH2]; cbn.
    - apply Permutation_refl.
    - destruct (var_eqb (fst x) v); auto.
    - destruct (var_eqb (fst x) v), (var_eqb (fst y) v); auto using perm_swap, Permutation_refl.
    - eapply Permutation_trans; eassumption. }
  apply F in P. apply (Permutation_map snd) in P. cbn [filter fst] in P. rewrite var_eqb_refl in P. exact P.
Qed.
Lemma short_add_twice l c d v : (length l < 5)%nat ->
  length (lc_add_term (lc_add_term l c v) d v) = S (S (length l)) /\
  Permutation (occurrences v (lc_add_term (lc_add_term l c v) d v)) (d :: c :: occurrences v l).
Proof.
  intro H. destruct (short_add_occ l c v ltac:(lia)) as (L1 & _ & P1).
  destruct (short_add_occ (lc_add_term l c v) d v ltac:(lia)) as (L2 & _ & P2).
  split; [lia|]. eapply Permutation_trans; [exact P2|]. apply perm_skip. exact P1.
Qed.
(** In long ordered combinations an already present variable is merged. *)
Lemma long_add_merges l c v : (6 <= length l)%nat -> ordered l -> (exists d, In (v, d) l) ->
  length (lc_add_term l c v) = length l.
Proof.
  intros H S (d & I). unfold lc_add_term, get_var_loc.
  destruct (Nat.ltb_spec (length l) 6) as [|_]; [lia|].
  destruct (bsearch l v) as [i|i] eqn:E.
  - generalize (fun '(w, d0) => (w, d0 + c) : var * K). clear. intro f. revert i.
    induction l as [|x l IH]; intros [|i]; cbn; auto.
  - destruct (bsearch_absent l v i S E) as [HL HR].
    apply In_nth_error in I. destruct I as [k En].
    destruct (Nat.lt_ge_cases k i) as [Hk|Hk].
    + specialize (HL k v d Hk En). rewrite var_cmp_refl in HL. discriminate.
    + specialize (HR k v d Hk En). rewrite var_cmp_refl in HR. discriminate.
Qed.

(** variables of results (used for well-formedness of constraint systems) *)
Definition vars_in (P : var -> Prop) l : Prop := Forall (fun t => P (fst t)) l.
Lemma vars_add_term (P : var -> Prop) l c v : vars_in P l -> P v -> vars_in P (lc_add_term l c v).
Proof.
  unfold vars_in. intros H Hv. unfold lc_add_term, get_var_loc.
  assert (forall i, Forall (fun t : var * K => P (fst t)) (insert_at i (v, c) l)) as A.
  { intro i. unfold insert_at. rewrite <- (firstn_skipn i l) in H. apply Forall_app in H.
    destruct H. apply Forall_app; split; auto. }
  destruct (Nat.ltb _ _); [apply A|]. destruct (bsearch l v) as [i|i]; [|apply A].
  clear A. revert i. induction H as [|[w d] l Hw H IH]; intros [|i]; cbn; constructor; auto.
Qed.
Lemma vars_map (P : var -> Prop) (f : K -> K) l : vars_in P l -> vars_in P (map (fun '(v, c) => (v, f c)) l).
Proof. induction 1 as [|[w d] l Hw H IH]; cbn; constructor; auto. Qed.
Lemma vars_merge (P : var -> Prop) push comb l m : vars_in P l -> vars_in P m -> vars_in P (lc_merge push comb l m).
Proof.
  unfold vars_in. intros H G. rewrite Forall_forall in *. intros t I. apply merge_vars in I.
  destruct I as [(u & J & <-)|(u & J & <-)]; auto.
Qed.
Lemma vars_zero (P : var -> Prop) : vars_in P lc_zero. Proof. constructor. Qed.
Lemma vars_of (P : var -> Prop) c v : P v -> vars_in P (lc_of c v). Proof. intro; repeat constructor; assumption. Qed.
Lemma vars_var (P : var -> Prop) v : P v -> vars_in P (lc_var v). Proof. intro; repeat constructor; assumption. Qed.
Lemma vars_neg (P : var -> Prop) l : vars_in P l -> vars_in P (lc_neg l). Proof. apply vars_map. Qed.
Lemma vars_double (P : var -> Prop) l : vars_in P l -> vars_in P (lc_double l). Proof. apply (vars_map P (fun c => c + c)). Qed.
Lemma vars_scale (P : var -> Prop) l s : vars_in P l -> vars_in P (lc_scale l s). Proof. apply (vars_map P (fun c => c * s)). Qed.
Lemma vars_sub_term (P : var -> Prop) l c v : vars_in P l -> P v -> vars_in P (lc_sub_term l c v). Proof. apply vars_add_term. Qed.
Lemma vars_add_var (P : var -> Prop) l v : vars_in P l -> P v -> vars_in P (lc_add_var l v). Proof. apply vars_add_term. Qed.
Lemma vars_sub_var (P : var -> Prop) l v : vars_in P l -> P v -> vars_in P (lc_sub_var l v). Proof. apply vars_add_term. Qed.
Lemma vars_add (P : var -> Prop) l m : vars_in P l -> vars_in P m -> vars_in P (lc_add l m).
Proof. unfold lc_add. intros. destruct m; auto. destruct l; auto. apply vars_merge; assumption. Qed.
Lemma vars_sub (P : var -> Prop) l m : vars_in P l -> vars_in P m -> vars_in P (lc_sub l m).
Proof. unfold lc_sub. intros. destruct m; auto. destruct l; [apply vars_neg; auto|]. apply vars_merge; assumption. Qed.
Lemma vars_add_scaled (P : var -> Prop) l s m : vars_in P l -> vars_in P m -> vars_in P (lc_add_scaled l s m).
Proof. unfold lc_add_scaled. intros. destruct m; auto. destruct l; [apply vars_scale; auto|]. apply vars_merge; assumption. Qed.
Lemma vars_sub_scaled (P : var -> Prop) l s m : vars_in P l -> vars_in P m -> vars_in P (lc_sub_scaled l s m).
Proof. apply vars_add_scaled. Qed.

Lemma eval_ext a b l (P : var -> Prop) : vars_in P l -> (forall v, P v -> a v = b v) -> eval a l = eval b l.
Proof.
  unfold vars_in. intros H E. induction H as [|[v c] l Hv H IH]; [reflexivity|].
  rewrite !eval_cons, IH, (E v Hv). reflexivity.
Qed.
End P.

(** ** Collected statements *)
Local Open Scope fld_scope.
Lemma lc_values : forall (K : Fld) (a : var -> K) (l m : lc K) (c : K) (v : var),
  eval a lc_zero = 0 /\ eval a (lc_of c v) = c * a v /\ eval a (lc_var v) = a v /\
  eval a (lc_neg l) = - eval a l /\ eval a (lc_double l) = eval a l + eval a l /\
  eval a (lc_scale l c) = eval a l * c /\
  eval a (lc_add_term l c v) = eval a l + c * a v /\ eval a (lc_sub_term l c v) = eval a l - c * a v /\
  eval a (lc_add_var l v) = eval a l + a v /\ eval a (lc_sub_var l v) = eval a l - a v /\
  eval a (lc_add l m) = eval a l + eval a m /\ eval a (lc_sub l m) = eval a l - eval a m /\
  eval a (lc_add_scaled l c m) = eval a l + c * eval a m /\
  eval a (lc_sub_scaled l c m) = eval a l - c * eval a m.
Proof.
  intros. repeat split; auto using eval_zero, eval_of, eval_var, eval_neg, eval_double, eval_scale, eval_add_term,
    eval_sub_term, eval_add_var, eval_sub_var, eval_add, eval_sub, eval_add_scaled, eval_sub_scaled.
Qed.
Lemma cvar_values : forall (K : Fld) (a : var -> K) (x y : cvar K) (o : lc K) (c : K) (v : var),
  ceval a (cvar_of_term K c v) = c * a v /\ ceval a (cvar_of_scaled K c x) = c * ceval a x /\
  ceval a (cvar_neg K x) = - ceval a x /\ ceval a (cvar_double K x) = ceval a x + ceval a x /\
  ceval a (cvar_mul K x c) = ceval a x * c /\
  eval a (cvar_add_lc K x o) = ceval a x + eval a o /\ eval a (cvar_sub_lc K x o) = ceval a x - eval a o /\
  ceval a (cvar_add_term K x c v) = ceval a x + c * a v /\ ceval a (cvar_sub_term K x c v) = ceval a x - c * a v /\
  ceval a (cvar_add K x y) = ceval a x + ceval a y /\ ceval a (cvar_sub K x y) = ceval a x - ceval a y /\
  ceval a (cvar_add_rr K x y) = ceval a x + ceval a y /\ ceval a (cvar_sub_rr K x y) = ceval a x - ceval a y /\
  ceval a (cvar_add_scaled K x c y) = ceval a x + c * ceval a y /\
  ceval a (cvar_sub_scaled K x c y) = ceval a x - c * ceval a y.
Proof.
  intros. repeat split; auto using ceval_of_term, ceval_of_scaled, ceval_neg, ceval_double, ceval_mul, ceval_add_lc,
    ceval_sub_lc, ceval_add_term, ceval_sub_term, ceval_add, ceval_sub, ceval_add_rr, ceval_sub_rr, ceval_add_scaled, ceval_sub_scaled.
Qed.

(** ** Index codec (C04) *)
Local Open Scope Z_scope.
Lemma le_bytes_length n z : length (le_bytes n z) = n.
Proof. revert z. induction n as [|n IH]; intro z; cbn; [reflexivity|]. rewrite IH. reflexivity. Qed.
Lemma of_le_bytes_le n z : 0 <= z < 256 ^ Z.of_nat n -> of_le_bytes (le_bytes n z) = z.
Proof.
  revert z. induction n as [|n IH]; intros z H; cbn [le_bytes of_le_bytes].
  - change (256 ^ Z.of_nat 0) with 1 in H. lia.
  - rewrite Nat2Z.inj_succ, Z.pow_succ_r in H by lia.
    rewrite IH.
    + pose proof (Z.div_mod z 256 ltac:(lia)). lia.
    + split; [apply Z.div_pos; lia|]. apply Z.div_lt_upper_bound; lia.
Qed.
Lemma le_bytes_byte n z : Forall (fun b => 0 <= b < 256) (le_bytes n z).
Proof. revert z. induction n as [|n IH]; intro z; cbn; constructor; auto. apply Z.mod_pos_bound; lia. Qed.

Definition uindex_val (i : uindex) : Z := match i with UInput u | UAux u => u end.
Lemma index_roundtrip i rest : 0 <= uindex_val i < 2 ^ 64 ->
  length (index_serialize i) = index_serialized_size i /\
  index_deserialize (index_serialize i ++ rest) = Some (i, rest).
Proof.
  intro H. change (2 ^ 64) with (256 ^ Z.of_nat 8) in H.
  assert (forall u, firstn 8 (le_bytes 8 u ++ rest) = le_bytes 8 u) as A.
  { intro u. rewrite <- (le_bytes_length 8 u) at 1. rewrite firstn_app, Nat.sub_diag, firstn_all, app_nil_r. reflexivity. }
  assert (forall u, skipn 8 (le_bytes 8 u ++ rest) = rest) as B.
  { intro u. rewrite <- (le_bytes_length 8 u) at 1. rewrite skipn_app, Nat.sub_diag, skipn_all. reflexivity. }
  assert (forall u, Nat.ltb (length (le_bytes 8 u ++ rest)) 8 = false) as C.
  { intro u. apply Nat.ltb_ge. rewrite app_length, le_bytes_length. lia. }
  destruct i as [u|u]; cbn [uindex_val] in H; unfold index_serialize; split;
    try (cbn [length]; rewrite le_bytes_length; reflexivity);
    cbn [app]; unfold index_deserialize; rewrite C, A, B, of_le_bytes_le by exact H; reflexivity.
Qed.
Lemma index_noncanonical t u rest : 0 < t < 256 -> 0 <= u < 2 ^ 64 ->
  index_deserialize ((t :: le_bytes 8 u) ++ rest) = Some (UAux u, rest).
Proof.
  intros Ht Hu. destruct (index_roundtrip (UAux u) rest Hu) as [_ H].
  unfold index_serialize in H. cbn [app] in *. unfold index_deserialize in *.
  destruct (Nat.ltb _ 8); [discriminate|].
  destruct (Z.eqb_spec t 0); [lia|]. exact H.
Qed.
Lemma index_short bs : (length bs < 9)%nat -> index_deserialize bs = None.
Proof.
  destruct bs as [|t r]; [reflexivity|]. cbn [length]. intro H. unfold index_deserialize.
  destruct (Nat.ltb_spec (length r) 8); [reflexivity|lia].
Qed.
