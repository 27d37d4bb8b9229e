(** SHA-256 on bit strings (FIPS 180-4), written on integers. *)
From Verif Require Import Field ModelUint32 SpecUint32.
Local Open Scope Z_scope.
(** Fractional parts of cube and square roots of primes are not re-derived: the standard's
    tables are repeated here. *)
Definition K256 : list Z :=
  [0x428a2f98; 0x71374491; 0xb5c0fbcf; 0xe9b5dba5; 0x3956c25b; 0x59f111f1; 0x923f82a4; 0xab1c5ed5;
   0xd807aa98; 0x12835b01; 0x243185be; 0x550c7dc3; 0x72be5d74; 0x80deb1fe; 0x9bdc06a7; 0xc19bf174;
   0xe49b69c1; 0xefbe4786; 0x0fc19dc6; 0x240ca1cc; 0x2de92c6f; 0x4a7484aa; 0x5cb0a9dc; 0x76f988da;
   0x983e5152; 0xa831c66d; 0xb00327c8; 0xbf597fc7; 0xc6e00bf3; 0xd5a79147; 0x06ca6351; 0x14292967;
   0x27b70a85; 0x2e1b2138; 0x4d2c6dfc; 0x53380d13; 0x650a7354; 0x766a0abb; 0x81c2c92e; 0x92722c85;
   0xa2bfe8a1; 0xa81a664b; 0xc24b8b70; 0xc76c51a3; 0xd192e819; 0xd6990624; 0xf40e3585; 0x106aa070;
   0x19a4c116; 0x1e376c08; 0x2748774c; 0x34b0bcb5; 0x391c0cb3; 0x4ed8aa4a; 0x5b9cca4f; 0x682e6ff3;
   0x748f82ee; 0x78a5636f; 0x84c87814; 0x8cc70208; 0x90befffa; 0xa4506ceb; 0xbef9a3f7; 0xc67178f2].
Definition H256 : list Z :=
  [0x6a09e667; 0xbb67ae85; 0x3c6ef372; 0xa54ff53a; 0x510e527f; 0x9b05688c; 0x1f83d9ab; 0x5be0cd19].
Definition add32 (a b : Z) : Z := (a + b) mod 2 ^ 32.
Definition Sigma0 (a : Z) : Z := Z.lxor (Z.lxor (rotr32 a 2) (rotr32 a 13)) (rotr32 a 22).
Definition Sigma1 (e : Z) : Z := Z.lxor (Z.lxor (rotr32 e 6) (rotr32 e 11)) (rotr32 e 25).
Definition sigma0 (w : Z) : Z := Z.lxor (Z.lxor (rotr32 w 7) (rotr32 w 18)) (w / 2 ^ 3).
Definition sigma1 (w : Z) : Z := Z.lxor (Z.lxor (rotr32 w 17) (rotr32 w 19)) (w / 2 ^ 10).
(** Message schedule: n more words. *)
Fixpoint schedule (n : nat) (w : list Z) : list Z :=
  match n with
  | O => w
  | S m => let t := length w in
      schedule m (w ++ [add32 (add32 (add32 (sigma1 (nth (t - 2) w 0)) (nth (t - 7) w 0)) (sigma0 (nth (t - 15) w 0))) (nth (t - 16) w 0)])
  end.
Definition regs : Type := Z * Z * Z * Z * Z * Z * Z * Z.
Definition round256 (r : regs) (kw : Z * Z) : regs :=
  let '(a, b, c, d, e, f, g, h) := r in
  let t1 := add32 (add32 (add32 (add32 h (Sigma1 e)) (ch32 e f g)) (fst kw)) (snd kw) in
  let t2 := add32 (Sigma0 a) (maj32 a b c) in
  (add32 t1 t2, a, b, c, add32 d t1, e, f, g).
Definition compress (hs : list Z) (w16 : list Z) : list Z :=
  match hs with
  | [h0; h1; h2; h3; h4; h5; h6; h7] =>
      let '(a, b, c, d, e, f, g, h) := fold_left round256 (combine K256 (schedule 48 w16)) (h0, h1, h2, h3, h4, h5, h6, h7) in
      [add32 h0 a; add32 h1 b; add32 h2 c; add32 h3 d; add32 h4 e; add32 h5 f; add32 h6 g; add32 h7 h]
  | _ => []
  end.
(** Big endian numbers. *)
Definition Z_be (b : list bool) : Z := fold_left (fun a t => 2 * a + Z.b2z t) b 0.
Definition be_bits (n : nat) (v : Z) : list bool := map (fun i => Z.testbit v (Z.of_nat (n - 1 - i))) (seq 0 n).
Fixpoint split_every {A} (n fuel : nat) (l : list A) : list (list A) :=
  match fuel, l with
  | S f, _ :: _ => firstn n l :: split_every n f (skipn n l)
  | _, _ => []
  end.
Definition groups {A} (n : nat) (l : list A) : list (list A) := split_every n (length l) l.
(** A one bit, zero bits up to 448 modulo 512, and the length. *)
Definition sha_pad (m : list bool) : list bool :=
  m ++ true :: repeat false (Z.to_nat ((447 - Z.of_nat (length m)) mod 512)) ++ be_bits 64 (Z.of_nat (length m)).
Definition sha256_spec (m : list bool) : list bool :=
  flat_map (be_bits 32) (fold_left (fun h b => compress h (map Z_be (groups 32 b))) (groups 512 (sha_pad m)) H256).
(** Bytes, most significant bit first. *)
Definition bytes_bits (b : list Z) : list bool := flat_map (be_bits 8) b.
