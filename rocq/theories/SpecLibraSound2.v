(** A rewound run of the whole verifier of libra's zero-knowledge protocol. *)
From Verif Require Import Field Poly Module ModelTranscript ModelMle ModelSigma ModelSpartan ModelLibra ModelHyrax ModelLibraZk SpecSigma SpecRewind SpecBulletTree SpecLibraSound.
From Coq Require Import String List.
Import ListNotations.
Local Open Scope string_scope.
Local Open Scope list_scope.
Local Open Scope fld_scope.
Section S.
Variable K : Fld.
Variable G : Grp K.
Notation orc := (oracle K G).
Notation tr := (transcript K G).
Notation com p x := (poly_commit_vec K G (mc_gens K G p) x (mc_h K G p) 0).
(** One evaluation of the input layer: a tree of runs of the evaluation proof, and another answer of the equality proof. *)
Record zo_rewind := mkZO { zo_k : nat; zo_tree : btree K G; zo_ech : orc; zo_epf : eproof K G }.
Definition zo_rewound (R : zo_rewind) (ch : orc) (p : hparams K G) (inputs : list K) (cw : list G) (q : list K) (commit : G) (pf : dproof K G) (cy : G) (eq : eproof K G) (t : tr) : Prop :=
  forall q0 pt t1 ei, q = q0 :: pt -> let pc := hp_pc K G p in let g1 := pc_gen_1 K G pc in let half := (length pt / 2)%nat in
  reduce_verifier K G ch pc pt cw cy pf t = Ok (true, t1) -> eval_value K inputs pt = Ok ei ->
  bt_ok "c" pc (poly_commit_vec K G cw (eval_eq K (firstn half pt)) (mc_h K G g1) 0) cy (eval_eq K (skipn half pt)) t (zo_k R) [] [] [] (zo_tree R) /\
  eq_twice ch (zo_ech R) g1 eq (zo_epf R) commit (gadd (gsm (1 - q0) cy) (gsm q0 (com g1 [ei]))) t1.
(** All layers and both evaluations. *)
Record zv_rewind := mkZV { zv_layers : nat -> zl_rewind K G; zv_o0 : zo_rewind; zv_o1 : zo_rewind }.
Definition zv_rewound (R : zv_rewind) (ch : orc) (p : hparams K G) (c : circuit) (outputs inputs : list K) (hash p_hash : K) (pf : zgkr K G) : Prop :=
  forall d top u gu t1, c_depth c = S d -> lget c d = Ok top -> eval_output K G ch outputs (l_bits top) (z_init K G hash p_hash inputs outputs (zg_witness K G pf)) = Ok (u, gu, t1) ->
  let claim := com (pc_gen_1 K G (hp_pc K G p)) [1 * u + 0 * 0] in
  z_rewound (zv_layers R) ch p c (zg_proofs K G pf) d claim 1 0 gu gu t1 /\
  forall ru rv cx cy t2 l0 inp, z_check K G ch p c (zg_proofs K G pf) d claim 1 0 gu gu t1 = Ok (ru, rv, cx, cy, t2) -> lget c 0 = Ok l0 -> z_inputs K (l_bits l0) inputs = Ok inp ->
  zo_rewound (zv_o0 R) ch p inp (zg_witness K G pf) ru cx (zg_prod0 K G pf) (zg_y0 K G pf) (zg_eq0 K G pf) t2 /\
  forall t3, z_opened K G ch p inp (zg_witness K G pf) ru cx (zg_prod0 K G pf) (zg_y0 K G pf) (zg_eq0 K G pf) t2 = Ok t3 ->
  zo_rewound (zv_o1 R) ch p inp (zg_witness K G pf) rv cy (zg_prod1 K G pf) (zg_y1 K G pf) (zg_eq1 K G pf) t3.
End S.
Arguments zo_rewound {K G}. Arguments zv_rewound {K G}.
