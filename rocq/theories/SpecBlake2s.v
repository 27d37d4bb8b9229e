(** BLAKE2s-256 without key (RFC 7693), on bytes. *)
From Verif Require Import Field ModelUint32 SpecUint32 SpecSha256.
Local Open Scope Z_scope.
Definition IV2s : list Z := [0x6A09E667; 0xBB67AE85; 0x3C6EF372; 0xA54FF53A; 0x510E527F; 0x9B05688C; 0x1F83D9AB; 0x5BE0CD19].
Definition SIGMA2s : list (list nat) := [
  [0; 1; 2; 3; 4; 5; 6; 7; 8; 9; 10; 11; 12; 13; 14; 15]; [14; 10; 4; 8; 9; 15; 13; 6; 1; 12; 0; 2; 11; 7; 5; 3];
  [11; 8; 12; 0; 5; 2; 15; 13; 10; 14; 3; 6; 7; 1; 9; 4]; [7; 9; 3; 1; 13; 12; 11; 14; 2; 6; 5; 10; 4; 0; 15; 8];
  [9; 0; 5; 7; 2; 4; 10; 15; 14; 1; 11; 12; 6; 8; 3; 13]; [2; 12; 6; 10; 0; 11; 8; 3; 4; 13; 7; 5; 15; 14; 1; 9];
  [12; 5; 1; 15; 14; 13; 4; 10; 0; 7; 6; 3; 9; 2; 8; 11]; [13; 11; 7; 14; 12; 1; 3; 9; 5; 0; 15; 4; 8; 6; 2; 10];
  [6; 15; 14; 9; 11; 3; 0; 8; 12; 2; 13; 7; 1; 4; 10; 5]; [10; 2; 8; 4; 7; 6; 1; 5; 15; 11; 9; 14; 3; 12; 13; 0]]%nat.
Fixpoint upd (v : list Z) (i : nat) (z : Z) : list Z :=
  match v, i with [], _ => [] | _ :: r, O => z :: r | a :: r, S j => a :: upd r j z end.
Definition at_ (v : list Z) (i : nat) : Z := nth i v 0.
Definition G2s (v : list Z) (a b c d : nat) (x y : Z) : list Z :=
  let v := upd v a (add32 (add32 (at_ v a) (at_ v b)) x) in
  let v := upd v d (rotr32 (Z.lxor (at_ v d) (at_ v a)) 16) in
  let v := upd v c (add32 (at_ v c) (at_ v d)) in
  let v := upd v b (rotr32 (Z.lxor (at_ v b) (at_ v c)) 12) in
  let v := upd v a (add32 (add32 (at_ v a) (at_ v b)) y) in
  let v := upd v d (rotr32 (Z.lxor (at_ v d) (at_ v a)) 8) in
  let v := upd v c (add32 (at_ v c) (at_ v d)) in
  upd v b (rotr32 (Z.lxor (at_ v b) (at_ v c)) 7).
Definition round2s (m : list Z) (v : list Z) (s : list nat) : list Z :=
  (let g v a b c d k := G2s v a b c d (at_ m (nth (2 * k) s 0%nat)) (at_ m (nth (2 * k + 1) s 0%nat)) in
  let v := g v 0 4 8 12 0 in let v := g v 1 5 9 13 1 in let v := g v 2 6 10 14 2 in let v := g v 3 7 11 15 3 in
  let v := g v 0 5 10 15 4 in let v := g v 1 6 11 12 5 in let v := g v 2 7 8 13 6 in g v 3 4 9 14 7)%nat.
Definition F2s (h m : list Z) (t : Z) (f : bool) : list Z :=
  let v := h ++ IV2s in
  let v := upd v 12 (Z.lxor (at_ v 12) (t mod 2 ^ 32)) in
  let v := upd v 13 (Z.lxor (at_ v 13) ((t / 2 ^ 32) mod 2 ^ 32)) in
  let v := if f then upd v 14 (Z.lxor (at_ v 14) 0xFFFFFFFF) else v in
  let v := fold_left (round2s m) SIGMA2s v in
  map (fun i => Z.lxor (Z.lxor (at_ h i) (at_ v i)) (at_ v (i + 8))) (seq 0 8).
(** Little endian words. *)
Definition word_le (b : list Z) : Z := fold_right (fun x a => x + 256 * a) 0 b.
Definition le_bytes (n : nat) (w : Z) : list Z := map (fun i => (w / 256 ^ Z.of_nat i) mod 256) (seq 0 n).
Definition fill (n : nat) (b : list Z) : list Z := b ++ repeat 0 (n - length b).
(** Data blocks: the message zero-filled to a multiple of 64 bytes, at least one block. *)
Definition blocks2s (msg : list Z) : list (list Z) :=
  map (fill 64) (match msg with [] => [[]] | _ => groups 64 msg end).
Definition words2s (block : list Z) : list Z := map word_le (groups 4 block).
(** All blocks; [i] blocks are done, [ll] bytes in total. *)
Fixpoint absorb (h : list Z) (i : Z) (ll : Z) (bs : list (list Z)) : list Z :=
  match bs with
  | [] => h
  | [b] => F2s h (words2s b) ll true
  | b :: r => absorb (F2s h (words2s b) ((i + 1) * 64) false) (i + 1) ll r
  end.
(** Parameter block: digest length 32, fanout and depth 1, the personalisation in its last 8 bytes. *)
Definition params2s (pers : list Z) : list Z :=
  [0x01010020; 0; 0; 0; 0; 0; word_le (firstn 4 pers); word_le (skipn 4 pers)].
Definition blake2s_spec (pers msg : list Z) : list Z :=
  flat_map (le_bytes 4) (absorb (map (fun '(a, b) => Z.lxor a b) (combine IV2s (params2s pers))) 0 (Z.of_nat (length msg)) (blocks2s msg)).
(** Bits of a byte string, least significant first, and back. *)
Definition bits_bytes (b : list bool) : list Z := map Z_of_bits (groups 8 b).
