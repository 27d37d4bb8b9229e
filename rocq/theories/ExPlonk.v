(** Concrete circuits, keys and challenges for the Plonk examples: integers modulo 97, the ideal commitment scheme. *)
From Coq Require Import Permutation.
From Verif Require Import Zp ExMarlin.
From Verif Require Import ModelPlonk SpecPlonk AttackPlonk ProofsPlonk8 ProofsPlonk10.
From Verif Require Import ModelPlonk.
Local Open Scope fld_scope.
Lemma fft97 : fft_ok dnew97.
Proof.
  split.
  - intros n d H. destruct (dnew97_some n d H) as (e & He & -> & Hn & _). split; [apply valid97, He|]. split; [exact Hn|]. do 6 (destruct e as [|e]; [reflexivity|]). lia.
  - intros n d d4 H H4. destruct (dnew97_some n d H) as (e & He & -> & Hn & _).
    do 4 (destruct e as [|e]; [injection H4 as <-; split; [reflexivity|apply feqb_eq; vm_compute; reflexivity]|]). do 2 (destruct e as [|e]; [discriminate|]). lia.
Qed.
Lemma combine_vals (K : Fld) (qs : list (string * K)) (evs : list K) lcs ps : eval_all lcs ps qs = Ok evs -> map snd (combine qs evs) = evs.
Proof.
  unfold eval_all. revert evs. induction qs as [|q qs IH]; intros evs E; cbn [mapR] in E; [injection E as <-; reflexivity|].
  match type of E with rbind ?m _ = _ => destruct m as [v| |]; try discriminate end. cbn [rbind] in E. match type of E with rbind ?m _ = _ => destruct m as [vs| |] eqn:E2; try discriminate end. injection E as <-. cbn. f_equal. apply IH. reflexivity.
Qed.
Lemma ideal_complete (K : Fld) : pc_complete (ideal_pcs K).
Proof.
  intros srs n ck rk ps crs lcs qs evs eps pf rng _ C _ E _. apply commit_ideal in C. rewrite C.
  change (rbind (eval_all lcs (combine (map fst ps) (map snd ps)) qs) (fun vs => Ok (same (map snd (combine qs evs)) vs)) = Ok true).
  replace (combine (map fst ps) (map snd ps)) with ps by (clear; induction ps as [|[a b] ps IH]; cbn; [reflexivity|f_equal; exact IH]).
  rewrite E. cbn [rbind]. rewrite (combine_vals K qs evs lcs ps E). f_equal. apply same_eq. reflexivity.
Qed.
Lemma ideal_total (K : Fld) : pc_total (ideal_pcs K).
Proof.
  intros srs n ck rk E. cbn in E. destruct (Nat.leb n srs); [|discriminate]. injection E as <- <-. split; [|intros; eexists; reflexivity].
  intros p r L. cbn [ideal_pcs p_commit]. destruct (Nat.leb_spec (length p) (S n)); [eexists; reflexivity|lia].
Qed.
(** x * y = z with z public, and 2x + y = u: three gates, padded to four. *)
Definition ops97 (x y z u : Z) : list (op F97) :=
  [OAlloc (z97 x); OAlloc (z97 y); OAlloc (z97 z); OAlloc (z97 u); OMul 1 2 3 None (z97 1) (z97 0) (z97 0); OAdd (1%nat, z97 2) (2%nat, z97 1) 4 None (z97 0) (z97 0); OConst 3 (z97 0) (z97 z)].
Definition circ (l : list (op F97)) : composer F97 := match run_ops (c_new F97) l with Ok c => c | _ => c_new F97 end.
Definition c97 := circ (ops97 3 5 15 11).
Definition bad97 := circ (ops97 3 5 16 11).
Definition ks97 : list F97 := [z97 1; z97 5; z97 7; z97 11].
Definition ord97 : list nat := [2; 0; 4; 1; 3]%nat.
Definition ro97p : oracle F97 (ideal_pcs F97) := fixed_oracle (ideal_pcs F97) (z97 2) (z97 31) (z97 9) (z97 19) (z97 3).
Lemma run_ok l : match run_ops (c_new F97) l with Ok _ => True | _ => False end -> run_ops (c_new F97) l = Ok (circ l).
Proof. unfold circ. destruct (run_ops (c_new F97) l); intros []; reflexivity. Qed.
Lemma run97 : run_ops (c_new F97) (ops97 3 5 15 11) = Ok c97. Proof. apply run_ok. vm_compute. exact I. Qed.
Lemma run_bad97 : run_ops (c_new F97) (ops97 3 5 16 11) = Ok bad97. Proof. apply run_ok. vm_compute. exact I. Qed.
Lemma perm97 : Permutation ord97 (seq 0 (length (c_vmap c97))).
Proof. replace (length (c_vmap c97)) with 5%nat by (vm_compute; reflexivity). apply NoDup_Permutation; [repeat constructor; cbn; intuition discriminate|apply seq_NoDup|]. intro x. rewrite in_seq. cbn. lia. Qed.
(** A circuit of one gate, for the soundness example. *)
Definition one97 := circ [OAlloc (z97 3); OConst 1 (z97 1) (z97 2)].
