(** Straight-line word programs over a packer: every live word is kept in one list. *)
From Verif Require Import Field ModelLC SpecLC ProofsLC ModelCS SpecCS ProofsCS ModelBoolean SpecBoolean ProofsBoolean ModelUint32 SpecUint32 ProofsUint32 ProofsWord ProofsAddmany.
Local Open Scope Z_scope.

(** Words obtained from the listed ones without touching the constraint system. *)
Inductive der (L : list u32) : u32 -> Prop :=
| der_in u : In u L -> der L u
| der_rotr u k : der L u -> der L (u32_rotr u k)
| der_shr u k : der L u -> der L (u32_shr u k)
| der_const v : 0 <= v < 2 ^ 32 -> der L (u32_constant v).
Lemma der_here L u : der (u :: L) u. Proof. apply der_in. left. reflexivity. Qed.
Lemma der_mono L L' u : incl L L' -> der L u -> der L' u.
Proof. intros I D. induction D; [apply der_in, I, H|apply der_rotr, IHD|apply der_shr, IHD|apply der_const, H]. Qed.
Lemma der_cons L r u : der L u -> der (r :: L) u. Proof. apply der_mono. intros v. apply in_cons. Qed.
Lemma der_app L l u : der L u -> der (l ++ L) u. Proof. apply der_mono. intros v. rewrite in_app_iff. auto. Qed.
Lemma der_l L l u : In u l -> der (l ++ L) u. Proof. intro I. apply der_in, in_app_iff. auto. Qed.
Ltac dr := first [ assumption | apply der_here | apply der_rotr; dr | apply der_shr; dr | apply der_const; lia | apply der_cons; dr
  | apply der_app; dr | apply der_l; assumption ].
Ltac drs := repeat match goal with
  | |- Forall _ [] => constructor
  | |- Forall (der _) (_ :: _) => constructor; [dr|]
  end.

Section Flow.
Context (K : PFld).
Implicit Types (s : cs K) (L : list u32).
Lemma der_word s L u : Forall (word_in s) L -> der L u -> word_in s u.
Proof.
  intros HL D. induction D; [eapply Forall_forall; eassumption|apply word_rotr, IHD|apply word_shr, IHD|apply constant_in, H].
Qed.
Lemma der_honest s L u : Forall (word_in s) L -> Forall (word_honest s) L -> der L u -> word_honest s u.
Proof.
  intros HL HH D. induction D; [eapply Forall_forall; eassumption| | |apply constant_in, H].
  - apply word_rotr; [eapply der_word; eassumption|exact IHD].
  - apply word_shr; [eapply der_word; eassumption|exact IHD].
Qed.
Lemma words_ext s s' L : ext s s' -> Forall (word_in s) L -> Forall (word_in s') L.
Proof. intros E H. eapply Forall_impl; [|exact H]. intros u. apply word_in_ext, E. Qed.
Lemma honest_ext s s' L : ext s s' -> Forall (word_in s) L -> Forall (word_honest s) L -> Forall (word_honest s') L.
Proof.
  intros E H HH. apply Forall_forall. intros u I. eapply word_honest_ext; [exact E| |].
  - eapply Forall_forall in H; eassumption.
  - eapply Forall_forall in HH; eassumption.
Qed.
Lemma seqL {A B} (ws : A -> list u32) (P : A -> Prop) (m : MM K A) (k : A -> MM K B) s q L S1 W2 (S2 : _ -> _ -> Prop) HR2 :
  Forall (word_in s) L ->
  mspec m (s, q) (fun s' r => Forall (word_in s') (ws r) /\ P r) S1 (Forall (word_honest s) L) (fun s' r => Forall (word_honest s') (ws r)) ->
  (forall r s' q', ext s s' -> wf s' -> q_ok s' q' -> Forall (word_in s') (ws r ++ L) -> P r ->
     mspec (k r) (s', q') W2 (fun x y => S1 x r -> S2 x y) (Forall (word_honest s') (ws r ++ L)) HR2) ->
  mspec (mbind m k) (s, q) W2 S2 (Forall (word_honest s) L) HR2.
Proof.
  intros HL Hm Hk. eapply mspec_bind; [exact Hm|]. cbn [fst]. intros r s' q' E Hw Hq [Wr Pr].
  pose proof (words_ext s s' L E HL) as HL'.
  eapply mspec_conseq; [apply (Hk r s' q' E Hw Hq)| | | |]; cbn [fst]; auto.
  - apply Forall_app. auto.
  - intros (H1 & H2 & _). apply Forall_app. split; [exact H2|]. eapply honest_ext; eassumption.
Qed.
(** Single-word results. *)
Definition one (u : u32) : list u32 := [u].
Definition wspec (m : MM K u32) s q L (f : (var -> K) -> Z) : Prop :=
  mspec m (s, q) (fun s' r => Forall (word_in s') (one r) /\ True) (fun x r => wval x r = f x) (Forall (word_honest s) L)
    (fun s' r => Forall (word_honest s') (one r)).
Lemma wspec_intro (m : MM K u32) s q L f H : mspec m (s, q) word_in (fun x r => wval x r = f x) H word_honest ->
  (Forall (word_honest s) L -> H) -> wspec m s q L f.
Proof.
  intros Hm HH. unfold wspec. eapply mspec_conseq; [exact Hm| | | |]; auto.
  - intros r s' _ _ Wr. split; [constructor; [exact Wr|constructor]|exact I].
  - intros r s' _ _ _ _ _ _ _ Hr. constructor; [exact Hr|constructor].
Qed.
Lemma w_xor a b s q L : wf s -> q_ok s q -> Forall (word_in s) L -> der L a -> der L b ->
  wspec (lift (u32_xor a b)) s q L (fun x => Z.lxor (wval x a) (wval x b)).
Proof.
  intros Hw Hq HL Da Db. pose proof (der_word s L a HL Da). pose proof (der_word s L b HL Db).
  eapply wspec_intro; [apply mspec_lift; [exact Hq|apply u32_xor_spec; assumption]|].
  intro HH. split; eapply der_honest; eassumption.
Qed.
Lemma w_ch a b c s q L : wf s -> q_ok s q -> Forall (word_in s) L -> der L a -> der L b -> der L c ->
  wspec (lift (u32_ch a b c)) s q L (fun x => ch32 (wval x a) (wval x b) (wval x c)).
Proof.
  intros Hw Hq HL Da Db Dc. pose proof (der_word s L a HL Da). pose proof (der_word s L b HL Db). pose proof (der_word s L c HL Dc).
  eapply wspec_intro; [apply mspec_lift; [exact Hq|apply u32_ch_spec; assumption]|].
  intro HH. repeat split; try (eapply der_honest; eassumption).
Qed.
Lemma w_maj a b c s q L : wf s -> q_ok s q -> Forall (word_in s) L -> der L a -> der L b -> der L c ->
  wspec (lift (u32_maj a b c)) s q L (fun x => maj32 (wval x a) (wval x b) (wval x c)).
Proof.
  intros Hw Hq HL Da Db Dc. pose proof (der_word s L a HL Da). pose proof (der_word s L b HL Db). pose proof (der_word s L c HL Dc).
  eapply wspec_intro; [apply mspec_lift; [exact Hq|apply u32_maj_spec; assumption]|].
  intro HH. repeat split; try (eapply der_honest; eassumption).
Qed.
Lemma w_add ops s q L : 64 <= modulus_bits K -> (2 <= length ops <= 10)%nat -> wf s -> q_ok s q -> Forall (word_in s) L -> Forall (der L) ops ->
  wspec (u32_addmany ops) s q L (fun x => zsum (map (wval x) ops) mod 2 ^ 32).
Proof.
  intros HK Hl Hw Hq HL D. eapply wspec_intro; [apply u32_addmany_spec; auto|].
  - eapply Forall_impl; [|exact D]. intros u. apply der_word, HL.
  - intro HH. eapply Forall_impl; [|exact D]. intros u. apply der_honest; assumption.
Qed.
Lemma w_ret u s q L : wf s -> q_ok s q -> Forall (word_in s) L -> der L u -> wspec (mret u) s q L (fun x => wval x u).
Proof.
  intros Hw Hq HL D. unfold wspec. apply mspec_ret; auto.
  - split; [|exact I]. constructor; [|constructor]. eapply der_word; eassumption.
  - intros _ _ HH. constructor; [|constructor]. eapply der_honest; eassumption.
Qed.
Lemma seqW {B} (m : MM K u32) (k : u32 -> MM K B) s q L f W2 (S2 : _ -> _ -> Prop) HR2 :
  Forall (word_in s) L -> wspec m s q L f ->
  (forall r s' q', ext s s' -> wf s' -> q_ok s' q' -> Forall (word_in s') (r :: L) ->
     mspec (k r) (s', q') W2 (fun x y => wval x r = f x -> S2 x y) (Forall (word_honest s') (r :: L)) HR2) ->
  mspec (mbind m k) (s, q) W2 S2 (Forall (word_honest s) L) HR2.
Proof. intros HL Hm Hk. eapply seqL; [exact HL|exact Hm|]. cbn [one app]. auto. Qed.
(** Leaving the program: the final list of result words must come from the live ones. *)
Lemma endL {A} (a : A) (ws : A -> list u32) (P : A -> Prop) s q L (S : _ -> _ -> Prop) : wf s -> q_ok s q -> Forall (word_in s) L ->
  Forall (der L) (ws a) -> P a -> (forall x, sat x s -> S x a) ->
  mspec (mret a) (s, q) (fun s' r => Forall (word_in s') (ws r) /\ P r) S (Forall (word_honest s) L) (fun s' r => Forall (word_honest s') (ws r)).
Proof.
  intros Hw Hq HL D HP HS. apply mspec_ret; auto.
  - split; [|exact HP]. eapply Forall_impl; [|exact D]. intros u. apply der_word, HL.
  - intros _ _ HH. eapply Forall_impl; [|exact D]. intros u. apply der_honest; assumption.
Qed.
(** Forgetting live words. *)
Lemma sub_honest s L L' : incl L' L -> Forall (word_honest s) L -> Forall (word_honest s) L'.
Proof. intros I H. apply Forall_forall. intros u J. eapply Forall_forall in H; [exact H|]. apply I, J. Qed.
Lemma sub_words s L L' : incl L' L -> Forall (word_in s) L -> Forall (word_in s) L'.
Proof. intros I H. apply Forall_forall. intros u J. eapply Forall_forall in H; [exact H|]. apply I, J. Qed.
End Flow.
Arguments wspec {K}.
