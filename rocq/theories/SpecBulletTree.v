(** A tree of accepted runs of the log-size dot-product proof of spartan, libra and hyrax. *)
From Verif Require Import Field Module ModelTranscript ModelSigma SpecSigma.
From Coq Require Import String List.
Import ListNotations.
Local Open Scope string_scope.
Local Open Scope list_scope.
Local Open Scope fld_scope.
Section S.
Variable K : Fld.
Variable G : Grp K.
Notation orc := (oracle K G).
(** A node holds the messages L and R of a round and three challenges to it, with the trees of the runs that continue with each of them;
    a leaf is a run and its answer to another last challenge. *)
Inductive btree := BLeaf (ch ch' : orc) (pf pf' : dproof K G) | BNode (L R : G) (x1 x2 x3 : K) (T1 T2 T3 : btree).
(** [T] continues runs with the messages [ls], [rs] and the challenges [xs] by k further rounds: the three challenges of a node have different
    squares, every run is accepted at the transcript [t], and the folded r_eq is not zero. *)
Fixpoint bt_ok (lbl : string) (p : pcp K G) (Cx Cy : G) (r_eq : list K) (t : transcript K G) (k : nat) (ls rs : list G) (xs : list K) (T : btree) : Prop :=
  match k, T with
  | O, BLeaf ch ch' pf pf' =>
      dp_l _ _ pf = ls /\ dp_r _ _ pf = rs /\ dp_l _ _ pf' = ls /\ dp_r _ _ pf' = rs /\ dp_delta _ _ pf = dp_delta _ _ pf' /\ dp_beta _ _ pf = dp_beta _ _ pf' /\
      (exists t', log_dot_verify K G ch lbl p Cx Cy r_eq pf t = Ok (true, t')) /\ (exists t', log_dot_verify K G ch' lbl p Cx Cy r_eq pf' t = Ok (true, t')) /\
      let t0 := MG "Cy" Cy :: MG "Cx" Cx :: t in
      exists bs gh ga t1, bullet_challenges K G ch ls rs t0 = Ok (xs, t1) /\ bullet_verify K G ch (mc_gens _ _ (pc_gen_n _ _ p)) ls rs (gadd Cx Cy) r_eq t0 = Ok (bs, gh, ga, t1) /\ bs <> 0 /\
        forks ch ch' lbl (MG "beta" (dp_beta _ _ pf) :: MG "delta" (dp_delta _ _ pf) :: t1)
  | S k, BNode L R x1 x2 x3 T1 T2 T3 =>
      x1 * x1 <> x2 * x2 /\ x1 * x1 <> x3 * x3 /\ x2 * x2 <> x3 * x3 /\ bt_ok lbl p Cx Cy r_eq t k (ls ++ [L]) (rs ++ [R]) (xs ++ [x1]) T1 /\
      bt_ok lbl p Cx Cy r_eq t k (ls ++ [L]) (rs ++ [R]) (xs ++ [x2]) T2 /\ bt_ok lbl p Cx Cy r_eq t k (ls ++ [L]) (rs ++ [R]) (xs ++ [x3]) T3
  | _, _ => False
  end.
(** The row commitments of a polynomial commitment open to the vector [v], cut into rows of [R] entries. *)
Definition rows_open (gs : list G) (h : G) (R : nat) (cw : list G) (v bs : list K) : Prop :=
  length v = (length cw * R)%nat /\ length bs = length cw /\ forall i, (i < length cw)%nat -> opens_vec gs h (nth i cw g0) (firstn R (skipn (i * R) v)) (nth i bs 0).
End S.
Arguments bt_ok {K G}. Arguments rows_open {K G}.
