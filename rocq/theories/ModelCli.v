(** Model of the hex codec and of the verdict reporting of the command-line tools: cli/src/zkp_prove.rs, cli/src/zkp_verify.rs. *)
From Coq Require Import ZArith List Bool.
From Verif Require Import Field.
Import ListNotations.
Local Open Scope Z_scope.
(** Bytes are integers 0..255; a Rust string is the list of its UTF-8 bytes. *)
(** zkp_prove.rs:130 `format!("{:02x}", b)`: the two lower-case digits. *)
Definition hex_digit (d : Z) : Z := if d <? 10 then 48 + d else 87 + d.
(** zkp_prove.rs:128-132 `to_hex`. *)
Fixpoint to_hex (v : list Z) : list Z :=
  match v with [] => [] | b :: r => hex_digit (b / 16) :: hex_digit (b mod 16) :: to_hex r end.
(** core `char::to_digit(16)`, used by zkp_verify.rs:125. *)
Definition digit_val (c : Z) : option Z :=
  if (48 <=? c) && (c <=? 57) then Some (c - 48)
  else if (97 <=? c) && (c <=? 102) then Some (c - 87)
  else if (65 <=? c) && (c <=? 70) then Some (c - 55) else None.
(** core `u8::from_str_radix(_, 16)` on a two-byte string (zkp_verify.rs:125): a leading plus sign is skipped; a minus sign is an
    invalid digit of an unsigned type; two digits cannot overflow. *)
Definition u8_of_pair (a b : Z) : option Z :=
  if a =? 43 then digit_val b
  else match digit_val a with None => None | Some x => match digit_val b with None => None | Some y => Some (16 * x + y) end end.
(** `str` slicing (zkp_verify.rs:125) panics unless both ends are character boundaries: a byte that is not a UTF-8 continuation byte, or the end. *)
Definition is_boundary (s : list Z) : bool := match s with [] => true | c :: _ => negb ((128 <=? c) && (c <=? 191)) end.
(** zkp_verify.rs:122-127: the loop over the pairs, from the pair at the head of [s]; `map_err(|_e| ())?`. *)
Fixpoint from_hex_loop (s : list Z) : res (list Z) :=
  match s with
  | a :: b :: r =>
      if is_boundary s && is_boundary r then
        match u8_of_pair a b with
        | None => Err Unsatisfiable
        | Some x => rbind (from_hex_loop r) (fun v => Ok (x :: v))
        end
      else Panic
  | _ => Ok []
  end.
(** zkp_verify.rs:117-130 `from_hex`; the unit error is represented by one error value. *)
Definition from_hex (s : list Z) : res (list Z) :=
  if Nat.odd (length s) then Err Unsatisfiable else from_hex_loop s.
(** zkp_verify.rs:110-113, 132-163: the end of `main` for a run in which everything decodes and the scheme's verification returns
    [verdict]: `unwrap` on an error panics (non-zero status); otherwise the verdict is printed and main returns `Ok(())`, exit status 0. *)
Inductive cli_end := Exited (status : Z) (printed : option bool) | Aborted.
Definition verify_main (verdict : res bool) : cli_end :=
  match verdict with Ok b => Exited 0 (Some b) | _ => Aborted end.
