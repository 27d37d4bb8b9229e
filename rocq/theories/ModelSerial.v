(** Byte encodings of structures: the derived `CanonicalSerialize`/`CanonicalDeserialize` of
    groth16/src/lib.rs:51-91 and the instance of plonk/src/ahp/indexer/mod.rs:36-147; the accessors
    of groth16/src/lib.rs:141-199 and the conversions of lines 68-126. *)
From Verif Require Import Field Module ModelLC ModelCS ModelGroth16.
(** An encoder and a decoder, which answers the value and what is left of the reader. Encodings of
    points and field elements (ark_ec, ark_ff) are arguments, one pair for each of the three variants
    `serialize`, `serialize_uncompressed`, `serialize_unchecked`. *)
Record codec (A : Type) := mkCodec { ser : A -> list Z; de : list Z -> option (A * list Z) }.
Arguments mkCodec {A}. Arguments ser {A}. Arguments de {A}.
(** ark_serialize 0.2, `usize` (lib.rs field `n`, plonk/src/ahp/indexer/mod.rs:39, 90): eight bytes, least significant first. *)
Definition c_usize : codec Z :=
  mkCodec (le_bytes 8) (fun b => if Nat.ltb (length b) 8 then None else Some (of_le_bytes (firstn 8 b), skipn 8 b)).
(** Derived instances (ark_serialize_derive, groth16/src/lib.rs:51, 59, 81): one field after the other. *)
Definition c_pair {A B} (a : codec A) (b : codec B) : codec (A * B) :=
  mkCodec (fun '(x, y) => ser a x ++ ser b y)
    (fun w => match de a w with None => None | Some (x, w') => match de b w' with None => None | Some (y, w'') => Some ((x, y), w'') end end).
(** The same structure under another name: groth16/src/lib.rs:51-91 are records, derived instances go field by field. *)
Definition c_iso {A B} (f : A -> B) (g : B -> A) (a : codec A) : codec B :=
  mkCodec (fun y => ser a (g y)) (fun w => match de a w with None => None | Some (x, w') => Some (f x, w') end).
(** ark_serialize 0.2, `Vec<T>` (groth16/src/lib.rs:65, 86-90): the length as u64, then the elements; reading stops at the first error. *)
Fixpoint de_many {A} (a : codec A) (n : nat) (w : list Z) : option (list A * list Z) :=
  match n with
  | O => Some ([], w)
  | S m => match de a w with None => None | Some (x, w') => match de_many a m w' with None => None | Some (l, w'') => Some (x :: l, w'') end end
  end.
Definition c_vec {A} (a : codec A) : codec (list A) :=
  mkCodec (fun l => ser c_usize (Z.of_nat (length l)) ++ flat_map (ser a) l)
    (fun w => match de c_usize w with None => None | Some (n, w') => de_many a (Z.to_nat n) w' end).

Section Keys.
Variable K : PFld.
Variable PR : Pairing K.
Section C.
Variable c1 : codec (G1 PR).
Variable c2 : codec (G2 PR).
(** groth16/src/lib.rs:51-56 `Proof`. *)
Definition c_proof : codec (proof K PR) :=
  c_iso (fun '(a, (b, c)) => mkPrf K PR a b c) (fun p => (pa K PR p, (pb K PR p, pc K PR p))) (c_pair c1 (c_pair c2 c1)).
(** groth16/src/lib.rs:59-66 `VerifyKey`. *)
Definition c_vkey : codec (vkey K PR) :=
  c_iso (fun '(a, (b, (c, (d, l)))) => mkVK K PR a b c d l)
    (fun v => (alpha_g1 K PR v, (beta_g2 K PR v, (gamma_g2 K PR v, (delta_g2 K PR v, gamma_abc_g1 K PR v)))))
    (c_pair c1 (c_pair c2 (c_pair c2 (c_pair c2 (c_vec c1))))).
(** groth16/src/lib.rs:81-91 `Parameters`. *)
Definition c_params : codec (params K PR) :=
  c_iso (fun '(v, (b, (d, (a, (b1, (b2, (h, l))))))) => mkPar K PR v b d a b1 b2 h l)
    (fun p => (pvk K PR p, (beta_g1 K PR p, (delta_g1 K PR p, (a_query K PR p, (b_g1_query K PR p, (b_g2_query K PR p, (h_query K PR p, l_query K PR p))))))))
    (c_pair c_vkey (c_pair c1 (c_pair c1 (c_pair (c_vec c1) (c_pair (c_vec c1) (c_pair (c_vec c2) (c_pair (c_vec c1) (c_vec c1)))))))).
End C.
(** groth16/src/lib.rs:146-178: slices [lo..n] and [n..] of a query; a slice index out of range panics. *)
Definition slices {A} (lo : nat) (q : list A) (n : nat) : res (list A * list A) :=
  if andb (Nat.leb lo n) (Nat.leb n (length q)) then Ok (firstn (n - lo) (skipn lo q), skipn n q) else Panic.
(** groth16/src/lib.rs:142-144 `get_vk`. *)
Definition get_vk (p : params K PR) (n : nat) : res (vkey K PR) := Ok (pvk K PR p).
(** groth16/src/lib.rs:146-151, 153-161, 163-171, 173-178. *)
Definition get_a_query (p : params K PR) (n : nat) := slices 1 (a_query K PR p) n.
Definition get_b_g1_query (p : params K PR) (n : nat) := slices 1 (b_g1_query K PR p) n.
Definition get_b_g2_query (p : params K PR) (n : nat) := slices 1 (b_g2_query K PR p) n.
Definition get_h_query (p : params K PR) (n : nat) := slices 0 (h_query K PR p) n.
(** groth16/src/lib.rs:68-78 `VerifyKey::default`; the default point is the identity. *)
Definition vk_default : vkey K PR := mkVK K PR g0 g0 g0 g0 [].
(** groth16/src/lib.rs:116-126 `PreparedVerifyingKey::default`; [e] is the default of the pairing's target and [m] that of a prepared point. *)
Definition pvk_default (e : GT PR) (m : G2 PR) : pvkey K PR := mkPVK K PR vk_default e m m [].
(** groth16/src/lib.rs:104-108 and 110-114, `From` in both directions. *)
Definition vk_of_pvk (p : pvkey K PR) : vkey K PR := pv_vk K PR p.
Definition pvk_of_vk (v : vkey K PR) : pvkey K PR := prepare K PR v.
End Keys.

(** plonk/src/ahp/indexer/mod.rs:30-34 `IndexInfo`, over field elements and domains. *)
Record index_info (F D : Type) := mkInfo { ii_n : Z; ii_k0 : F; ii_k1 : F; ii_k2 : F; ii_k3 : F; ii_domain : D }.
Arguments mkInfo {F D}. Arguments ii_n {F D}. Arguments ii_k0 {F D}. Arguments ii_k1 {F D}. Arguments ii_k2 {F D}. Arguments ii_k3 {F D}. Arguments ii_domain {F D}.
(** plonk/src/ahp/indexer/mod.rs:38-45, 55-75 `serialize` and its variants. *)
Definition info_ser {F D} (f : codec F) (d : codec D) (x : index_info F D) : list Z :=
  ser c_usize (ii_n x) ++ ser f (ii_k0 x) ++ ser f (ii_k1 x) ++ ser f (ii_k2 x) ++ ser f (ii_k3 x) ++ ser d (ii_domain x).
(** plonk/src/ahp/indexer/mod.rs:47-52 `serialized_size`: four times the size of the first shift. *)
Definition info_size {F D} (sf : F -> nat) (sd : D -> nat) (x : index_info F D) : nat := 8 + sf (ii_k0 x) * 4 + sd (ii_domain x).
(** plonk/src/ahp/indexer/mod.rs:86-102, 104-119, 121-136 `deserialize` and its variants. *)
Definition info_de {F D} (f : codec F) (d : codec D) (w : list Z) : option (index_info F D * list Z) :=
  match de c_usize w with None => None | Some (n, w) =>
  match de f w with None => None | Some (k0, w) =>
  match de f w with None => None | Some (k1, w) =>
  match de f w with None => None | Some (k2, w) =>
  match de f w with None => None | Some (k3, w) =>
  match de d w with None => None | Some (g, w) => Some (mkInfo n k0 k1 k2 k3 g, w) end end end end end end.
