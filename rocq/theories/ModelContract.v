(** Model of the on-chain verifier scripts: ckb-contracts/contracts/*/src/{entry,error,main}.rs. *)
From Coq Require Import ZArith List Bool.
From Verif Require Import Field.
Import ListNotations.
Local Open Scope Z_scope.
(** ckb_std `SysError`, matched in error.rs:14-25. *)
Inductive sys_error := IndexOutOfBound | ItemMissing | LengthNotEnough (n : nat) | Encoding | Unknown (code : Z).
(** error.rs:4-12, `repr(i8)` with IndexOutOfBound = 1 and the following variants consecutive. *)
Inductive error := EIndexOutOfBound | EItemMissing | ELengthNotEnough | EEncoding | EVerify.
(** main.rs:29 `err as i8`. *)
Definition code_of (e : error) : Z :=
  match e with EIndexOutOfBound => 1 | EItemMissing => 2 | ELengthNotEnough => 3 | EEncoding => 4 | EVerify => 5 end.
(** What `entry::main` can do: return a Result or panic. *)
(* entry.rs:12 *)
Inductive outcome := Done | Fail (e : error) | Abort.
(** error.rs:14-25 `From<SysError>`; the unknown code panics. *)
Definition from_sys (e : sys_error) : outcome :=
  match e with
  | IndexOutOfBound => Fail EIndexOutOfBound | ItemMissing => Fail EItemMissing | LengthNotEnough _ => Fail ELengthNotEnough
  | Encoding => Fail EEncoding | Unknown _ => Abort
  end.
(** Cell data, `Vec<u8>` (entry.rs:14-29). *)
Definition bytes := list Z.
(** `load_cell_data(i, Source::Output)` (entry.rs:14, 20, 26): an arbitrary function of the index, as the chain answers it. *)
Definition loader := nat -> bytes + sys_error.
(** entry.rs:12-29 (all scripts): cells 0, 1 and 2 of the outputs are loaded in order; the first failure is returned. *)
Definition with_cells (load : loader) (k : bytes -> bytes -> bytes -> outcome) : outcome :=
  match load 0%nat with inr e => from_sys e | inl a =>
  match load 1%nat with inr e => from_sys e | inl b =>
  match load 2%nat with inr e => from_sys e | inl c => k a b c end end end.
(** `X::deserialize(..).map_err(|_e| Error::Encoding)?` (entry.rs:31-34). *)
Definition decode {A} (d : bytes -> option A) (b : bytes) (k : A -> outcome) : outcome :=
  match d b with None => Fail EEncoding | Some x => k x end.
(** entry.rs:38-41: `match verify_proof(..) { Ok(true) => Ok(()), _ => Err(Error::Verify) }`; a panic inside aborts. *)
Definition verdict (v : res bool) : outcome := match v with Ok true => Done | Panic => Abort | _ => Fail EVerify end.
(** universal_groth16_verifier/src/entry.rs:12-42, universal_marlin_verifier, universal_spartan_{snark,nizk}_verifier: the public data is one field element. *)
Definition main_single {VK P X} (dvk : bytes -> option VK) (dpf : bytes -> option P) (dx : bytes -> option X) (verify : VK -> P -> list X -> res bool) (load : loader) : outcome :=
  with_cells load (fun a b c => decode dvk a (fun vk => decode dpf b (fun pf => decode dx c (fun x => verdict (verify vk pf [x]))))).
(** universal_plonk_verifier/src/entry.rs:18-56: as above but the public data decodes to a whole vector; also the
    mini_clinkv2 scripts (entry.rs:62-101), where decoding order does not matter (same error), the fixed circuit being part of [verify]. *)
Definition main_vector {VK P X} (dvk : bytes -> option VK) (dpf : bytes -> option P) (dx : bytes -> option X) (verify : VK -> P -> X -> res bool) (load : loader) : outcome :=
  with_cells load (fun a b c => decode dvk a (fun vk => decode dpf b (fun pf => decode dx c (fun x => verdict (verify vk pf x))))).
(** mini_bulletproofs_verifier/src/entry.rs:47-85: the first cell is loaded and dropped; generators and circuit come with the proof. *)
Definition main_bulletproofs {GS R P X} (dpf : bytes -> option (GS * R * P)) (dx : bytes -> option X) (verify : GS -> P -> R -> list X -> res bool) (load : loader) : outcome :=
  with_cells load (fun _ b c => decode dpf b (fun '(gs, r, pf) => decode dx c (fun x => verdict (verify gs pf r [x])))).
(** mini_libra / mini_hyrax entry.rs:34-68: verification answers a plain bool, the circuit is fixed in the script. *)
Definition main_gkr {VK P X} (dvk : bytes -> option VK) (dpf : bytes -> option P) (dx : bytes -> option X) (verify : VK -> P -> X -> res bool) (load : loader) : outcome :=
  with_cells load (fun a b c => decode dvk a (fun vk => decode dpf b (fun pf => decode dx c (fun x =>
    match verify vk pf x with Ok true => Done | Panic => Abort | _ => Fail EVerify end)))).
(** main.rs:25-31 `program_entry`; [None] is an abnormal end of the script (panic), which the chain treats as failure. *)
Definition program_entry (o : outcome) : option Z :=
  match o with Done => Some 0 | Fail e => Some (code_of e) | Abort => None end.
