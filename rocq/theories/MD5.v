(** Model of src/MD5Sum.hpp (78-285).  unsigned int is 32 bits and unsigned long 64 bits wide; a
    stream is the list of its bytes (numbers 0-255). *)
From Coq Require Import List Ascii String ZArith Lia Bool Arith.
From Verif Require Import Parse.
Import ListNotations.
Local Open Scope Z_scope.

Definition u32 (z : Z) : Z := z mod 2 ^ 32.
(** 114-118 *)
Definition rotations : list Z :=
  [7; 12; 17; 22; 7; 12; 17; 22; 7; 12; 17; 22; 7; 12; 17; 22;
   5; 9; 14; 20; 5; 9; 14; 20; 5; 9; 14; 20; 5; 9; 14; 20;
   4; 11; 16; 23; 4; 11; 16; 23; 4; 11; 16; 23; 4; 11; 16; 23;
   6; 10; 15; 21; 6; 10; 15; 21; 6; 10; 15; 21; 6; 10; 15; 21].
(** 122-133 *)
Definition extra : list Z :=
  [0xd76aa478; 0xe8c7b756; 0x242070db; 0xc1bdceee; 0xf57c0faf; 0x4787c62a;
   0xa8304613; 0xfd469501; 0x698098d8; 0x8b44f7af; 0xffff5bb1; 0x895cd7be;
   0x6b901122; 0xfd987193; 0xa679438e; 0x49b40821; 0xf61e2562; 0xc040b340;
   0x265e5a51; 0xe9b6c7aa; 0xd62f105d; 0x02441453; 0xd8a1e681; 0xe7d3fbc8;
   0x21e1cde6; 0xc33707d6; 0xf4d50d87; 0x455a14ed; 0xa9e3e905; 0xfcefa3f8;
   0x676f02d9; 0x8d2a4c8a; 0xfffa3942; 0x8771f681; 0x6d9d6122; 0xfde5380c;
   0xa4beea44; 0x4bdecfa9; 0xf6bb4b60; 0xbebfbc70; 0x289b7ec6; 0xeaa127fa;
   0xd4ef3085; 0x04881d05; 0xd9d4d039; 0xe6db99e5; 0x1fa27cf8; 0xc4ac5665;
   0xf4292244; 0x432aff97; 0xab9423a7; 0xfc93a039; 0x655b59c3; 0x8f0ccc92;
   0xffeff47d; 0x85845dd1; 0x6fa87e4f; 0xfe2ce6e0; 0xa3014314; 0x4e0811a1;
   0xf7537e82; 0xbd3af235; 0x2ad7d2bb; 0xeb86d391].
(** 135-144 *)
Definition word (message : list Z) (j : nat) : Z :=
  let b k := nth (4 * j + k) message 0 in
  let m := b 3%nat in
  let m := Z.lor (u32 (Z.shiftl m 8)) (b 2%nat) in
  let m := Z.lor (u32 (Z.shiftl m 8)) (b 1%nat) in
  Z.lor (u32 (Z.shiftl m 8)) (b 0%nat).
Record regs := mkR { rA : Z; rB : Z; rC : Z; rD : Z }.
Definition not32 (x : Z) : Z := u32 (Z.lnot x).
(** 151-176: one round *)
Definition md5_round (message : list Z) (r : regs) (i : nat) : regs :=
  let A := rA r in let B := rB r in let C := rC r in let D := rD r in
  let '(F, g) := match Nat.div i 16 with
    | 0%nat => (Z.lor (Z.land B C) (Z.land (not32 B) D), i)
    | 1%nat => (Z.lor (Z.land D B) (Z.land (not32 D) C), Nat.modulo (5 * i + 1) 16)
    | 2%nat => (Z.lxor (Z.lxor B C) D, Nat.modulo (3 * i + 5) 16)
    | _ => (Z.lxor C (Z.lor B (not32 D)), Nat.modulo (7 * i) 16)
    end in
  let F := u32 (F + A + nth i extra 0 + word message g) in
  let s := nth i rotations 0 in
  mkR D (u32 (B + Z.lor (u32 (Z.shiftl F s)) (Z.shiftr F (32 - s)))) B C.
(** 110-181 *)
Definition md5 (message : list Z) (r0 : regs) : regs :=
  let r := fold_left (md5_round message) (seq 0 64) r0 in
  mkR (u32 (rA r0 + rA r)) (u32 (rB r0 + rB r)) (u32 (rC r0 + rC r)) (u32 (rD r0 + rD r)).
(** 192-195 *)
Definition regs0 : regs := mkR 0x67452301 0xefcdab89 0x98badcfe 0x10325476.
(** 224-230, 260-266: message_size <<= 3 and its eight bytes *)
Definition u64' (z : Z) : Z := z mod 2 ^ 64.
Definition length_bytes (message_size : Z) : list Z :=
  let size := u64' (Z.shiftl message_size 3) in
  map (fun i => Z.land (Z.shiftr size (Z.of_nat i * 8)) 255) (seq 0 8).
(** 210-241: the block that holds the end of the stream; returns it and the new message_size *)
Definition last_block (block : list Z) (message_size : Z) : list Z * Z :=
  let block := block ++ [128] in
  if (List.length block <? 57)%nat then (block ++ repeat 0 (56 - List.length block) ++ length_bytes message_size, 0)
  else (block ++ repeat 0 (64 - List.length block), message_size).
(** 201-245: the loop over the blocks; each pass consumes at least one byte *)
Fixpoint md5_loop (fuel : nat) (input : list Z) (message_size : Z) (special_end : bool) (r : regs) : regs * Z * bool :=
  match fuel, input with
  | S f, _ :: _ =>
      let block := firstn 64 input in
      let message_size := u64' (message_size + Z.of_nat (List.length block)) in
      if (List.length block <? 64)%nat then
        let '(block, message_size) := last_block block message_size in
        (md5 block r, message_size, false)   (* the stream has ended *)
      else md5_loop f (skipn 64 input) message_size special_end (md5 block r)
  | _, _ => (r, message_size, special_end)
  end.
(** 247-270 *)
Definition final_block (message_size : Z) (special_end : bool) : list Z :=
  let block := if special_end then [128] else [] in
  block ++ repeat 0 (56 - List.length block) ++ length_bytes message_size.
(** 78-99 *)
Definition hex_char (x : Z) : ascii := ascii_of_nat (Z.to_nat (if x <? 10 then 48 + x else 97 + (x - 10))).
Definition tohex (x : Z) : text :=
  flat_map (fun i => map (fun j => hex_char (Z.land (Z.shiftr x ((2 * Z.of_nat i + 1 - Z.of_nat j) * 4)) 15)) (seq 0 2)) (seq 0 4).
(** 189-274 *)
Definition md5_regs (input : list Z) : regs :=
  let '(r, message_size, special_end) := md5_loop (List.length input) input 0 true regs0 in
  if special_end || (0 <? message_size) then md5 (final_block message_size special_end) r else r.
Definition get_checksum (input : text) : text :=
  let r := md5_regs (map code input) in tohex (rA r) ++ tohex (rB r) ++ tohex (rC r) ++ tohex (rD r).
