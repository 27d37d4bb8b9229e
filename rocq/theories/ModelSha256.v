(** Model of gadgets/src/hashes/sha256.rs. No proofs. *)
From Verif Require Import Field ModelLC ModelCS ModelBoolean ModelUint32 ModelOperator.
Local Open Scope Z_scope.

(** sha256.rs:18-27 `ROUND_CONSTANTS`. *)
Definition sha_k : list Z :=
  [1116352408; 1899447441; 3049323471; 3921009573; 961987163; 1508970993; 2453635748; 2870763221;
   3624381080; 310598401; 607225278; 1426881987; 1925078388; 2162078206; 2614888103; 3248222580;
   3835390401; 4022224774; 264347078; 604807628; 770255983; 1249150122; 1555081692; 1996064986;
   2554220882; 2821834349; 2952996808; 3210313671; 3336571891; 3584528711; 113926993; 338241895;
   666307205; 773529912; 1294757372; 1396182291; 1695183700; 1986661051; 2177026350; 2456956037;
   2730485921; 2820302411; 3259730800; 3345764771; 3516065817; 3600352804; 4094571909; 275423344;
   430227734; 506948616; 659060556; 883997877; 958139571; 1322822218; 1537002063; 1747873779;
   1955562222; 2024104815; 2227730452; 2361852424; 2428436474; 2756734187; 3204031479; 3329325298].
(** sha256.rs:29-31 `IV`. *)
Definition sha_iv : list Z :=
  [1779033703; 3144134277; 1013904242; 2773480762; 1359893119; 2600822924; 528734635; 1541459225].
(** sha256.rs:80-82 `get_sha256_iv`. *)
Definition get_sha256_iv : list u32 := map u32_constant sha_iv.

(** `slice::chunks(n)`: consecutive pieces of length n, the last possibly shorter. *)
Definition chunks {A} (n : nat) (l : list A) : list (list A) :=
  map (fun i => firstn n (skipn (i * n) l)) (seq 0 ((length l + n - 1) / n)%nat).
(** An iterator `map` whose function may panic. *)
Fixpoint res_map {A B} (f : A -> res B) (l : list A) : res (list B) :=
  match l with
  | [] => Ok []
  | a :: r => rbind (f a) (fun b => rbind (res_map f r) (fun bs => Ok (b :: bs)))
  end.

(** sha256.rs:128-131 `enum Maybe`. *)
Inductive maybe := Deferred (v : list u32) | Concrete (v : u32).
(** sha256.rs:152-159: the eight working variables. *)
Record shast := mkSt { va : maybe; vb : u32; vc : u32; vd : u32; ve : maybe; vf : u32; vg : u32; vh : u32 }.

Section Sha.
Variable K : PFld.
(** sha256.rs:133-149 `Maybe::compute`; a concrete value ignores [others]. *)
Definition maybe_compute (m : maybe) (others : list u32) : MM K u32 :=
  match m with
  | Concrete v => mret v
  | Deferred v => u32_addmany (v ++ others)
  end.
(** sha256.rs:104-124: message schedule; [n] remaining words, next index [i]. *)
Fixpoint sha_extend (n i : nat) (w : list u32) : MM K (list u32) :=
  match n with
  | O => mret w
  | S n' =>
    match nth_error w (i - 15), nth_error w (i - 2), nth_error w (i - 16), nth_error w (i - 7) with
    | Some w15, Some w2, Some w16, Some w7 =>
      s0 <~ lift (u32_xor (u32_rotr w15 7) (u32_rotr w15 18)) ;;
      s0' <~ lift (u32_xor s0 (u32_shr w15 3)) ;;
      s1 <~ lift (u32_xor (u32_rotr w2 17) (u32_rotr w2 19)) ;;
      s1' <~ lift (u32_xor s1 (u32_shr w2 10)) ;;
      tmp <~ u32_addmany [w16; s0'; w7; s1'] ;;
      sha_extend n' (S i) (w ++ [tmp])
    | _, _, _, _ => mpanic
    end
  end.
(** sha256.rs:161-216: one round with constant [k] and schedule word [w]. *)
Definition sha_round (st : shast) (k : Z) (w : u32) : MM K shast :=
  new_e <~ maybe_compute (ve st) [] ;;
  s1 <~ lift (u32_xor (u32_rotr new_e 6) (u32_rotr new_e 11)) ;;
  s1' <~ lift (u32_xor s1 (u32_rotr new_e 25)) ;;
  ch <~ lift (u32_ch new_e (vf st) (vg st)) ;;
  let temp1 := [vh st; s1'; ch; u32_constant k; w] in
  new_a <~ maybe_compute (va st) [] ;;
  s0 <~ lift (u32_xor (u32_rotr new_a 2) (u32_rotr new_a 13)) ;;
  s0' <~ lift (u32_xor s0 (u32_rotr new_a 22)) ;;
  maj <~ lift (u32_maj new_a (vb st) (vc st)) ;;
  let temp2 := [s0'; maj] in
  mret (mkSt (Deferred (temp1 ++ temp2)) new_a (vb st) (vc st) (Deferred (temp1 ++ [vd st])) new_e (vf st) (vg st)).
Fixpoint sha_rounds (kw : list (Z * u32)) (st : shast) : MM K shast :=
  match kw with
  | [] => mret st
  | (k, w) :: r => st' <~ sha_round st k w ;; sha_rounds r st'
  end.
(** sha256.rs:84-255 `sha256_compression_function`; the assertions are [Panic]. The loop reads
    ROUND_CONSTANTS[i] and w[i] for i below 64. *)
Definition sha256_compression (input : list boolean) (cur : list u32) : M K (list u32) :=
  if negb (Nat.eqb (length input) 512) then panic
  else match cur with
  | [c0; c1; c2; c3; c4; c5; c6; c7] =>
    w <- lift_res (res_map u32_from_bits_be (chunks 32 input)) ;;
    with_multieq (
      w' <~ sha_extend 48 16 w ;;
      if negb (Nat.eqb (length w') 64) then mpanic else
      st <~ sha_rounds (combine sha_k w') (mkSt (Concrete c0) c1 c2 c3 (Concrete c4) c5 c6 c7) ;;
      h0 <~ maybe_compute (va st) [c0] ;;
      h1 <~ u32_addmany [c1; vb st] ;;
      h2 <~ u32_addmany [c2; vc st] ;;
      h3 <~ u32_addmany [c3; vd st] ;;
      h4 <~ maybe_compute (ve st) [c4] ;;
      h5 <~ u32_addmany [c5; vf st] ;;
      h6 <~ u32_addmany [c6; vg st] ;;
      h7 <~ u32_addmany [c7; vh st] ;;
      mret [h0; h1; h2; h3; h4; h5; h6; h7])
  | _ => panic
  end.
(** sha256.rs:33-49 `sha256_block_no_padding`. *)
Definition sha256_block_no_padding (input : list boolean) : M K (list boolean) :=
  if negb (Nat.eqb (length input) 512) then panic else
  r <- sha256_compression input get_sha256_iv ;;
  ret (flat_map u32_into_bits_be r).
(** sha256.rs:62-65: zero bits until the length plus 64 is a multiple of 512; at most 512 steps. *)
Fixpoint pad_zeros (fuel : nat) (l : list boolean) : list boolean :=
  match fuel with
  | O => l
  | S f => if Nat.eqb ((length l + 64) mod 512) 0 then l else pad_zeros f (l ++ [BConst false])
  end.
(** sha256.rs:72-75: the block loop. *)
Fixpoint sha_blocks (bl : list (list boolean)) (cur : list u32) : M K (list u32) :=
  match bl with
  | [] => ret cur
  | b :: r => cur' <- sha256_compression b cur ;; sha_blocks r cur'
  end.
(** sha256.rs:51-78 `sha256`. *)
Definition sha256 (input : list boolean) : M K (list boolean) :=
  if negb (Nat.eqb (length input mod 8) 0) then panic else
  let p1 := pad_zeros 512 (input ++ [BConst true]) in
  let padded := p1 ++ map (fun i => BConst (Z.testbit (Z.of_nat (length input)) (Z.of_nat i))) (rev (seq 0 64)) in
  if negb (Nat.eqb (length padded mod 512) 0) then panic else
  cur <- sha_blocks (chunks 512 padded) get_sha256_iv ;;
  ret (flat_map u32_into_bits_be cur).
(** sha256.rs:258-262 `AbstractHashSha256Output`. *)
Record sha_out := mkSO { so_value : option (list boolean); so_vars : list var }.
(** `Result::unwrap`. *)
Definition unwrapM {A} (m : M K A) : M K A := fun s => match m s with Err _ => Panic | r => r end.
(** sha256.rs:344-351: concatenation of the parameters' bits. *)
Fixpoint so_inputs (ps : list sha_out) : res (list boolean) :=
  match ps with
  | [] => Ok []
  | p :: r => match so_value p with Some l => rbind (so_inputs r) (fun ls => Ok (l ++ ls)) | None => Err AssignmentMissing end
  end.
(** sha256.rs:338-366 `hash_enforce`: the exported variables are new bits allocated next to the
    computed booleans (355-360). *)
Definition sha_hash_enforce (ps : list sha_out) : M K sha_out :=
  inputs <- lift_res (so_inputs ps) ;;
  booleans <- sha256 inputs ;;
  vs <- mapM (fun b => a <- unwrapM (bit_alloc (b_value b)) ;; ret (bvar a)) booleans ;;
  ret (mkSO (Some booleans) vs).
End Sha.
Arguments unwrapM {K A}. Arguments sha_hash_enforce {K}.
Arguments maybe_compute {K}. Arguments sha_extend {K}. Arguments sha_round {K}. Arguments sha_rounds {K}.
Arguments sha256_compression {K}. Arguments sha256_block_no_padding {K}. Arguments sha_blocks {K}. Arguments sha256 {K}.
