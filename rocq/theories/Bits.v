(** Model of include/macis/bitset_operations.hpp and of the std::bitset
    operations used by /repo. A [std::bitset<W>] is an [N] below [2^W].
    No proofs in this file. *)
From Verif Require Import Base.

(** ** std::bitset primitives (C++ standard, 20.9.2) *)

(* std::bitset::operator~ *)
Definition bs_not (W : nat) (x : N) : N := N.lxor (N.ones (N.of_nat W)) x.
(* std::bitset::operator<< : bits shifted beyond the width are dropped *)
Definition bs_shl (W : nat) (x : N) (k : nat) : N :=
  N.land (N.shiftl x (N.of_nat k)) (N.ones (N.of_nat W)).
(* std::bitset::operator>> *)
Definition bs_shr (x : N) (k : nat) : N := N.shiftr x (N.of_nat k).
(* the effect of flipping bit [i] *)
Definition flipb (x : N) (i : nat) : N := N.lxor x (N.shiftl 1 (N.of_nat i)).
(* std::bitset::flip(pos): throws std::out_of_range if pos >= W *)
Definition bs_flip (W : nat) (x : N) (i : nat) : res N :=
  if i <? W then Ok (flipb x i) else Err Throw.
(* std::bitset::set(pos): throws std::out_of_range if pos >= W *)
Definition bs_set (W : nat) (x : N) (i : nat) : res N :=
  if i <? W then Ok (N.lor x (N.shiftl 1 (N.of_nat i))) else Err Throw.
(* std::bitset::count *)
Fixpoint popcount_pos (p : positive) : nat :=
  match p with xH => 1 | xO q => popcount_pos q | xI q => S (popcount_pos q) end.
Definition bs_count (x : N) : nat :=
  match x with N0 => 0 | Npos p => popcount_pos p end.
(* std::bitset::to_ulong / to_ullong: throw std::overflow_error if the value
   does not fit 64 bits (unsigned long is 64 bits on the platforms supported) *)
Definition bs_to_u64 (x : N) : res N :=
  if (x <? 2 ^ 64)%N then Ok x else Err Throw.
(* the k-th 64-bit / 32-bit word of the object representation (little endian,
   words stored low to high) as read by reinterpret_cast *)
Definition word64 (x : N) (k : nat) : N := ((x / 2 ^ (64 * N.of_nat k)) mod 2 ^ 64)%N.
Definition word32 (x : N) (k : nat) : N := ((x / 2 ^ (32 * N.of_nat k)) mod 2 ^ 32)%N.

(** ** compiler builtins *)

(* ffsl / ffsll (POSIX): one plus the index of the least significant set bit,
   0 for 0 *)
Fixpoint ffs_pos (p : positive) : nat :=
  match p with xH => 1 | xI _ => 1 | xO q => S (ffs_pos q) end.
Definition ffs_word (x : N) : nat :=
  match x with N0 => 0 | Npos p => ffs_pos p end.
(* bitset_operations.hpp:26-46 clz overloads: __builtin_clz{,l,ll}; undefined
   for 0. [w] is the number of bits of the operand type. *)
Definition clz (w : nat) (x : N) : res nat :=
  if (x =? 0)%N then Err UB else Ok (w - 1 - N.to_nat (N.log2 x)).

(** ** bitset_operations.hpp *)

(* bitset_operations.hpp:58-63 fls(Integral): CHAR_BIT*sizeof - clz(i) - 1 *)
Definition fls_word (w : nat) (x : N) : res nat :=
  do c <- clz w x; Ok (w - c - 1).

(* bitset_operations.hpp:66-73 fast_to_ullong *)
Definition fast_to_ullong (W : nat) (x : N) : res N :=
  if (W =? 64) || (W =? 128) then Ok (word64 x 0)
  else if W =? 32 then Ok (word32 x 0)
  else bs_to_u64 x.

(* bitset_operations.hpp:76-82 fast_to_ulong: note the 32-bit read at
   W = 64 and W = 128 *)
Definition fast_to_ulong (W : nat) (x : N) : res N :=
  if (W =? 32) || (W =? 64) || (W =? 128) then Ok (word32 x 0)
  else bs_to_u64 x.

(* bitset_operations.hpp:85-94 to_uint128 (static_assert W <= 128) *)
Definition to_uint128 (W : nat) (x : N) : res N :=
  if W =? 128 then Ok x else fast_to_ullong W x.

(* bitset_operations.hpp:108-122 full_mask<N,M>() (static_assert M >= N);
   the reinterpret_cast stores write the low word of a zero mask *)
Definition full_mask_ct (n M : nat) : N :=
  if n =? M / 2 then
    if n =? 64 then (2 ^ 64 - 1)%N
    else if n =? 32 then (2 ^ 32 - 1)%N
    else bs_shr (bs_not M 0) (M - n)
  else bs_shr (bs_not M 0) (M - n).

(* bitset_operations.hpp:136-141 full_mask<N>(i); assert(i <= N). With NDEBUG
   and i > N the shift count N - i wraps to a huge value and gives 0; the model
   reports the failed assertion. *)
Definition full_mask (W i : nat) : res N :=
  if i <=? W then Ok (bs_shr (bs_not W 0) (W - i)) else Err AssertFail.

(* bitset_operations.hpp:153-172 ffs, W > 128 branch: linear scan, falls out
   with ind = N *)
Fixpoint ffs_scan (x : N) (ind fuel : nat) : nat :=
  match fuel with
  | 0 => ind
  | S f => if tb x ind then ind + 1 else ffs_scan x (S ind) f
  end.

(* bitset_operations.hpp:153-172 ffs *)
Definition ffs (W : nat) (x : N) : res nat :=
  if W <=? 32 then do w <- fast_to_ulong W x; Ok (ffs_word w)
  else if W <=? 64 then do w <- fast_to_ullong W x; Ok (ffs_word w)
  else if W <=? 128 then
    if negb (word64 x 0 =? 0)%N then Ok (ffs_word (word64 x 0))
    else Ok (ffs_word (word64 x 1) + 64)
  else Ok (ffs_scan x 0 W).

(* bitset_operations.hpp:196-199: downward scan; [ind >= 0] is always true for
   uint32_t, so on an empty string the index wraps to 2^32-1 and bits[] is read
   out of range *)
Fixpoint fls_scan (x : N) (n : nat) : res nat :=
  match n with
  | 0 => Err UB
  | S i => if tb x i then Ok i else fls_scan x i
  end.

(* bitset_operations.hpp:184-203 fls *)
Definition fls (W : nat) (x : N) : res nat :=
  if W <=? 32 then do w <- fast_to_ulong W x; fls_word 64 w
  else if W <=? 64 then do w <- fast_to_ullong W x; fls_word 64 w
  else if W <=? 128 then
    if negb (word64 x 1 =? 0)%N then do r <- fls_word 64 (word64 x 1); Ok (r + 64)
    else fls_word 64 (word64 x 0)
  else fls_scan x W.

(* [ffs(bits) - 1] as used at bitset_operations.hpp:213, sd_operations.hpp:92
   and :498. The C++ result is uint32_t; when ffs is 0 it is 2^32-1. Callers
   either pass it to std::bitset::flip, which throws std::out_of_range, or use
   it as an array index, which is out of bounds; [e] says which. *)
Definition ffs_m1 (e : err) (W : nat) (x : N) : res nat :=
  do f <- ffs W x;
  match f with 0 => Err e | S i => Ok i end.

(* bitset_operations.hpp:206-217 bits_to_indices (in place), loop body run
   [c] times *)
Fixpoint indices_loop (W : nat) (x : N) (c : nat) : res (list nat) :=
  match c with
  | 0 => Ok []
  | S c' => do ind <- ffs_m1 Throw W x; do x' <- bs_flip W x ind;
            do l <- indices_loop W x' c'; Ok (ind :: l)
  end.
(* bitset_operations.hpp:206-225 bits_to_indices (both overloads) *)
Definition bits_to_indices (W : nat) (x : N) : res (list nat) :=
  indices_loop W x (bs_count x).

(* copy of the low [n] bits one by one: the loops at bitset_operations.hpp:239
   and :257 *)
Fixpoint copy_bits (x : N) (n : nat) : N :=
  match n with
  | 0 => 0%N
  | S i => if tb x i then N.lor (copy_bits x i) (N.shiftl 1 (N.of_nat i))
           else copy_bits x i
  end.

(* construction of std::bitset<N> from an unsigned integer keeps the low N bits *)
Definition bs_of_u64 (n : nat) (v : N) : N := N.land v (N.ones (N.of_nat n)).

(* bitset_operations.hpp:228-244 truncate_bitset<N,M> (static_assert M >= N) *)
Definition truncate_bitset (n M : nat) (x : N) : res N :=
  if M =? n then Ok x
  else if n <=? 64 then
    (* N <= 32: to_ulong, N <= 64: to_ullong, both 64 bit *)
    do v <- bs_to_u64 (N.land x (full_mask_ct n M)); Ok (bs_of_u64 n v)
  else Ok (copy_bits x n).

(* bitset_operations.hpp:247-262 expand_bitset<N,M> (static_assert N >= M) *)
Definition expand_bitset (n M : nat) (x : N) : res N :=
  if M =? n then Ok x
  else if M <=? 64 then do v <- bs_to_u64 x; Ok (bs_of_u64 n v)
  else Ok (copy_bits x M).

(* bitset_operations.hpp:265-274 bitset_lo_word; only W = 64 and W = 128
   compile *)
Definition bitset_lo_word (W : nat) (x : N) : N :=
  if W =? 128 then word64 x 0 else word32 x 0.
(* bitset_operations.hpp:277-286 bitset_hi_word; only W = 64 and W = 128
   compile *)
Definition bitset_hi_word (W : nat) (x : N) : N :=
  if W =? 128 then word64 x 1 else word32 x 1.

(* bitset_operations.hpp:300-303: the bit loop of bitset_less *)
Fixpoint less_scan (x y : N) (n : nat) : bool :=
  match n with
  | 0 => false
  | S i => if xorb (tb x i) (tb y i) then tb y i else less_scan x y i
  end.

(* bitset_operations.hpp:289-306 bitset_less *)
Definition bitset_less (W : nat) (x y : N) : res bool :=
  if W <=? 32 then
    do a <- fast_to_ulong W x; do b <- fast_to_ulong W y; Ok (a <? b)%N
  else if W <=? 64 then
    do a <- fast_to_ullong W x; do b <- fast_to_ullong W y; Ok (a <? b)%N
  else if W =? 128 then Ok (x <? y)%N
  else Ok (less_scan x y W).
