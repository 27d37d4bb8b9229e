(** Model of gadgets/src/hashes/blake2s.rs. No proofs. *)
From Verif Require Import Field ModelLC ModelCS ModelBoolean ModelUint32 ModelOperator ModelSha256.
Local Open Scope Z_scope.

(** blake2s.rs:52-63 `SIGMA`. *)
Definition b2_sigma : list (list nat) := [
  [0; 1; 2; 3; 4; 5; 6; 7; 8; 9; 10; 11; 12; 13; 14; 15];
  [14; 10; 4; 8; 9; 15; 13; 6; 1; 12; 0; 2; 11; 7; 5; 3];
  [11; 8; 12; 0; 5; 2; 15; 13; 10; 14; 3; 6; 7; 1; 9; 4];
  [7; 9; 3; 1; 13; 12; 11; 14; 2; 6; 5; 10; 4; 0; 15; 8];
  [9; 0; 5; 7; 2; 4; 10; 15; 14; 1; 11; 12; 6; 8; 3; 13];
  [2; 12; 6; 10; 0; 11; 8; 3; 4; 13; 7; 5; 15; 14; 1; 9];
  [12; 5; 1; 15; 14; 13; 4; 10; 0; 7; 6; 3; 9; 2; 8; 11];
  [13; 11; 7; 14; 12; 1; 3; 9; 5; 0; 15; 4; 8; 6; 2; 10];
  [6; 15; 14; 9; 11; 3; 0; 8; 12; 2; 13; 7; 1; 4; 10; 5];
  [10; 2; 8; 4; 7; 6; 1; 5; 15; 11; 9; 14; 3; 12; 13; 0]]%nat.
(** The index arguments of the eight `mixing_g` calls of a round (blake2s.rs:212-291). *)
Definition b2_positions : list (nat * nat * nat * nat) :=
  [(0, 4, 8, 12); (1, 5, 9, 13); (2, 6, 10, 14); (3, 7, 11, 15); (0, 5, 10, 15); (1, 6, 11, 12); (2, 7, 8, 13); (3, 4, 9, 14)]%nat.
(** blake2s.rs:186-193 and 341-348: the initialisation vector. *)
Definition b2_iv : list Z := [1779033703; 3144134277; 1013904242; 2773480762; 1359893119; 2600822924; 528734635; 1541459225].
(** `v[i] = u` on a vector. *)
Fixpoint set_nth {A} (l : list A) (i : nat) (u : A) : list A :=
  match l, i with
  | [], _ => []
  | _ :: r, O => u :: r
  | a :: r, S j => a :: set_nth r j u
  end.
(** `LittleEndian::read_u32` of four bytes (byteorder crate). *)
Definition read_u32 (b : list Z) : Z :=
  match b with [b0; b1; b2; b3] => b0 + 2 ^ 8 * b1 + 2 ^ 16 * b2 + 2 ^ 24 * b3 | _ => 0 end.

Section B.
Variable K : PFld.
(** `v[i]`; out of range is [Panic]. *)
Definition getM {A} (v : list A) (i : nat) : MM K A := match nth_error v i with Some u => mret u | None => mpanic end.
(** One addition line of `mixing_g`: `v[i] = UInt32::addmany(.., &[v[i], v[j], ..])` (blake2s.rs:99-102, 104, 106-109, 111). *)
Definition add_line (v : list u32) (i j : nat) (extra : list u32) : MM K (list u32) :=
  vi <~ getM v i ;; vj <~ getM v j ;; t <~ u32_addmany (vi :: vj :: extra) ;; mret (set_nth v i t).
(** One xor line: `v[i] = v[i].xor(.., &v[j])?.rotr(n)` (blake2s.rs:103, 105, 110, 112). *)
Definition xor_line (v : list u32) (i j n : nat) : MM K (list u32) :=
  vi <~ getM v i ;; vj <~ getM v j ;; t <~ lift (u32_xor vi vj) ;; mret (set_nth v i (u32_rotr t n)).
(** blake2s.rs:87-116 `mixing_g`; R1..R4 (blake2s.rs:29-32) are 16, 12, 8, 7. *)
Definition mixing_g (v : list u32) (a b c d : nat) (x y : u32) : MM K (list u32) :=
  v <~ add_line v a b [x] ;;
  v <~ xor_line v d a 16 ;;
  v <~ add_line v c d [] ;;
  v <~ xor_line v b c 12 ;;
  v <~ add_line v a b [y] ;;
  v <~ xor_line v d a 8 ;;
  v <~ add_line v c d [] ;;
  xor_line v b c 7.
(** blake2s.rs:212-291: one round, the eight calls written as a loop over their indices. *)
Fixpoint mix_calls (ps : list (nat * nat * nat * nat)) (s : list nat) (m v : list u32) : MM K (list u32) :=
  match ps, s with
  | [], _ => mret v
  | (a, b, c, d) :: ps', i :: j :: s' =>
      x <~ getM m i ;; y <~ getM m j ;; v' <~ mixing_g v a b c d x y ;; mix_calls ps' s' m v'
  | _, _ => mpanic
  end.
(** blake2s.rs:207-292: the ten rounds. *)
Fixpoint mix_rounds (ss : list (list nat)) (m v : list u32) : MM K (list u32) :=
  match ss with
  | [] => mret v
  | s :: r => v' <~ mix_calls b2_positions s m v ;; mix_rounds r m v'
  end.
(** blake2s.rs:166-304 `blake2s_compression`; returns the new [h]. *)
Definition blake2s_compression (h m : list u32) (t : Z) (f : bool) : M K (list u32) :=
  if negb (Nat.eqb (length h) 8) then panic else
  if negb (Nat.eqb (length m) 16) then panic else
  match map u32_constant b2_iv with
  | [i0; i1; i2; i3; i4; i5; i6; i7] =>
    v12 <- u32_xor i4 (u32_constant (t mod 2 ^ 32)) ;;
    v13 <- u32_xor i5 (u32_constant ((t / 2 ^ 32) mod 2 ^ 32)) ;;
    v14 <- (if f then u32_xor i6 (u32_constant (2 ^ 32 - 1)) else ret i6) ;;
    v <- with_multieq (mix_rounds b2_sigma m (h ++ [i0; i1; i2; i3; v12; v13; v14; i7])) ;;
    mapM (fun '(hi, vi, vj) => r <- u32_xor hi vi ;; u32_xor r vj) (combine (combine h (firstn 8 v)) (skipn 8 v))
  | _ => panic
  end.
(** blake2s.rs:359-363: one word of the message, filled up with false bits. *)
Definition b2_word (w : list boolean) : res u32 := u32_from_bits (w ++ repeat (BConst false) (32 - length w)).
(** blake2s.rs:356-369: one message block, filled up with zero words. *)
Definition b2_block (b : list boolean) : res (list u32) :=
  rbind (res_map b2_word (chunks 32 b)) (fun ws => Ok (ws ++ repeat (u32_constant 0) (16 - length ws))).
(** blake2s.rs:375-379: the blocks before the last; [i] counts from 0. *)
Fixpoint b2_loop (i : Z) (bl : list (list u32)) (h : list u32) : M K (list u32) :=
  match bl with
  | [] => ret h
  | b :: r => h' <- blake2s_compression h b ((i + 1) * 64) false ;; b2_loop (i + 1) r h'
  end.
(** blake2s.rs:333-397 `blake2s`. The offsets stay below 2^64 for any slice that fits in memory. *)
Definition blake2s (input : list boolean) (pers : list Z) : M K (list boolean) :=
  if negb (Nat.eqb (length pers) 8) then panic else
  if negb (Nat.eqb (length input mod 8) 0) then panic else
  let h := map u32_constant
    [Z.lxor (Z.lxor 1779033703 16842752) 32; 3144134277; 1013904242; 2773480762; 1359893119; 2600822924;
     Z.lxor 528734635 (read_u32 (firstn 4 pers)); Z.lxor 1541459225 (read_u32 (skipn 4 pers))] in
  blocks <- lift_res (res_map b2_block (chunks 512 input)) ;;
  let blocks := match blocks with [] => [repeat (u32_constant 0) 16] | _ => blocks end in
  h <- b2_loop 0 (removelast blocks) h ;;
  h <- blake2s_compression h (last blocks []) (Z.of_nat (length input / 8)) true ;;
  ret (flat_map u32_into_bits h).
End B.
Arguments getM {K A}. Arguments add_line {K}. Arguments xor_line {K}. Arguments mixing_g {K}. Arguments mix_calls {K}. Arguments mix_rounds {K}.
Arguments blake2s_compression {K}. Arguments b2_loop {K}. Arguments blake2s {K}.
