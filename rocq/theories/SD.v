(** Model of include/macis/sd_operations.hpp. No proofs in this file. *)
From Coq Require Import QArith Qcanon Ascii.
From Verif Require Import Base Bits.
Local Open Scope nat_scope.

(** ** Hartree-Fock determinants *)

(* sd_operations.hpp:30-36 canonical_hf_determinant(nalpha, nbeta) *)
Definition canonical_hf (W na nb : nat) : res N :=
  do alpha <- full_mask W na;
  do b <- full_mask W nb;
  Ok (N.lor alpha (bs_shl W b (W / 2))).

(* the comparator at sd_operations.hpp:62-64 *)
Definition qlt (x y : Qc) : bool := if Qclt_le_dec x y then true else false.

(* std::stable_sort of indices by a comparator on indices: reference
   implementation (stable insertion sort; the C++ contract determines the
   result uniquely) *)
Fixpoint insert_stable (lt : nat -> nat -> bool) (x : nat) (l : list nat) : list nat :=
  match l with
  | [] => [x]
  | y :: l' => if lt y x then y :: insert_stable lt x l' else x :: l
  end.
Definition stable_sort (lt : nat -> nat -> bool) (l : list nat) : list nat :=
  fold_right (insert_stable lt) [] l.

(* one filling loop, sd_operations.hpp:67 / :68: for i < n: bits.flip(idx[i] + off) *)
Fixpoint fill_electrons (W : nat) (bits : N) (idx : list nat) (off n : nat) {struct n} : res N :=
  match n with
  | 0 => Ok bits
  | S n' => match idx with
            | [] => Err UB  (* idx[i] read past the end *)
            | p :: idx' => do b <- bs_flip W bits (p + off);
                           fill_electrons W b idx' off n'
            end
  end.

(* sd_operations.hpp:55-70 canonical_hf_determinant(nalpha, nbeta, orb_ens) *)
Definition canonical_hf_ens (W na nb : nat) (ens : list Qc) : res N :=
  let e i := nth i ens 0%Qc in
  let idx := stable_sort (fun i j => qlt (e i) (e j)) (seq 0 (length ens)) in
  do alpha <- fill_electrons W 0 idx 0 na;
  do beta <- fill_electrons W 0 idx (W / 2) nb;
  Ok (N.lor alpha beta).

(** ** Occupied and virtual orbitals *)

(* sd_operations.hpp:81-96 bitset_to_occ_vir. [dbg]: assertions enabled.
   The virtual loop (:91-95) has the same body as bits_to_indices, run nvir
   times on the complement. nocc > norb makes norb - nocc wrap and resize
   throw. *)
Definition bitset_to_occ_vir (dbg : bool) (W norb : nat) (state : N)
  : res (list nat * list nat) :=
  do occ <- bits_to_indices W state;
  let nocc := length occ in
  if dbg && negb (nocc <? norb) then Err AssertFail
  else if norb <? nocc then Err Throw
  else do vir <- indices_loop W (bs_not W state) (norb - nocc);
       Ok (occ, vir).

(* state[i] without range check: undefined for i >= W *)
Definition bs_at (W : nat) (x : N) (i : nat) : res bool :=
  if i <? W then Ok (tb x i) else Err UB.

(* sd_operations.hpp:110-126 bitset_to_occ_vir_as *)
Definition bitset_to_occ_vir_as (dbg : bool) (W norb : nat) (state : N) (as_orbs : list nat)
  : res (list nat * list nat) :=
  do flags <- mapM (bs_at W state) as_orbs;
  let occ := map fst (filter snd (combine as_orbs flags)) in
  let vir := map fst (filter (fun q => negb (snd q)) (combine as_orbs flags)) in
  if dbg && negb (length occ <=? norb) then Err AssertFail
  else Ok (occ, vir).

(** ** Excitations *)

(* loop order of sd_operations.hpp:138-142: a outer, i inner; an excitation is
   the pair (i, a) *)
Definition single_pairs (occ vir : list nat) : list (nat * nat) :=
  flat_map (fun a => map (fun i => (i, a)) occ) vir.

(* a state with the bits of an excitation operator flipped:
   state ^ bitset(0).flip(..)...flip(..); flip throws beyond the width *)
Definition excite (W : nat) (state : N) (l : list nat) : res N :=
  fold_left (fun acc i => do x <- acc; do e <- bs_flip W x i; Ok e) l (Ok state).

(* sd_operations.hpp:128-143 append_singles (which clears its output).
   bitset<N>(0).flip(occ[i]).flip(vir[a]) xor state = state flipped at both *)
Definition append_singles (W : nat) (state : N) (occ vir : list nat) : res (list N) :=
  mapM (fun p => excite W state [fst p; snd p]) (single_pairs occ vir).

(* every element of a list together with the elements after it: the iteration
   space "for x; for y > x" *)
Fixpoint tails {A} (l : list A) : list (A * list A) :=
  match l with [] => [] | x :: r => (x, r) :: tails r end.

(* loop order of sd_operations.hpp:157-164: a, i, b > a, j > i *)
Definition double_quads (occ vir : list nat) : list (nat * nat * nat * nat) :=
  flat_map (fun av => flat_map (fun io =>
    flat_map (fun b => map (fun j => (fst io, fst av, j, b)) (snd io)) (snd av))
    (tails occ)) (tails vir).

(* sd_operations.hpp:145-166 append_doubles *)
Definition append_doubles (W : nat) (state : N) (occ vir : list nat) : res (list N) :=
  mapM (fun q => let '(i, a, j, b) := q in excite W state [i; a; j; b])
       (double_quads occ vir).

(* sd_operations.hpp:168-176 generate_singles *)
Definition generate_singles (dbg : bool) (W norb : nat) (state : N) : res (list N) :=
  do ov <- bitset_to_occ_vir dbg W norb state;
  append_singles W state (fst ov) (snd ov).
(* sd_operations.hpp:178-186 generate_doubles *)
Definition generate_doubles (dbg : bool) (W norb : nat) (state : N) : res (list N) :=
  do ov <- bitset_to_occ_vir dbg W norb state;
  append_doubles W state (fst ov) (snd ov).
(* sd_operations.hpp:188-199 generate_singles_doubles *)
Definition generate_singles_doubles (dbg : bool) (W norb : nat) (state : N)
  : res (list N * list N) :=
  do ov <- bitset_to_occ_vir dbg W norb state;
  do s <- append_singles W state (fst ov) (snd ov);
  do d <- append_doubles W state (fst ov) (snd ov);
  Ok (s, d).
(* sd_operations.hpp:202-211 generate_singles_as *)
Definition generate_singles_as (dbg : bool) (W norb : nat) (state : N) (as_orbs : list nat)
  : res (list N) :=
  do ov <- bitset_to_occ_vir_as dbg W norb state as_orbs;
  append_singles W state (fst ov) (snd ov).
(* sd_operations.hpp:214-226 generate_singles_doubles_as *)
Definition generate_singles_doubles_as (dbg : bool) (W norb : nat) (state : N)
  (as_orbs : list nat) : res (list N * list N) :=
  do ov <- bitset_to_occ_vir_as dbg W norb state as_orbs;
  do s <- append_singles W state (fst ov) (snd ov);
  do d <- append_doubles W state (fst ov) (snd ov);
  Ok (s, d).

(* joining an alpha and a beta string: expand_bitset<N>(alpha) |
   (expand_bitset<N>(beta) << (N/2)) *)
Definition join_spin (W : nat) (a b : N) : res N :=
  do ea <- expand_bitset W (W / 2) a;
  do eb <- expand_bitset W (W / 2) b;
  Ok (N.lor ea (bs_shl W eb (W / 2))).

(* sd_operations.hpp:242-260, :284-299, :342-357, :377-392: the full-space
   singles from spin-specific ones *)
Definition spin_singles (W : nat) (sa sb : N) (la lb : list N) : res (list N) :=
  do l1 <- mapM (fun x => join_spin W x sb) la;
  do l2 <- mapM (fun x => join_spin W sa x) lb;
  Ok (l1 ++ l2).

(* sd_operations.hpp:301-324, :394-417: the full-space doubles *)
Definition spin_doubles (W : nat) (sa sb : N) (la lb da db : list N) : res (list N) :=
  do l1 <- mapM (fun x => join_spin W x sb) da;
  do l2 <- mapM (fun x => join_spin W sa x) db;
  do l3 <- mapM (fun p => join_spin W (fst p) (snd p)) (list_prod la lb);
  Ok (l1 ++ l2 ++ l3).

(* sd_operations.hpp:327-358 generate_singles_spin *)
Definition generate_singles_spin (dbg : bool) (W norb : nat) (state : N) : res (list N) :=
  let sa := bitset_lo_word W state in
  let sb := bitset_hi_word W state in
  do la <- generate_singles dbg (W / 2) norb sa;
  do lb <- generate_singles dbg (W / 2) norb sb;
  spin_singles W sa sb la lb.

(* sd_operations.hpp:360-418 generate_singles_doubles_spin *)
Definition generate_singles_doubles_spin (dbg : bool) (W norb : nat) (state : N)
  : res (list N * list N) :=
  let sa := bitset_lo_word W state in
  let sb := bitset_hi_word W state in
  do a <- generate_singles_doubles dbg (W / 2) norb sa;
  do b <- generate_singles_doubles dbg (W / 2) norb sb;
  do s <- spin_singles W sa sb (fst a) (fst b);
  do d <- spin_doubles W sa sb (fst a) (fst b) (snd a) (snd b);
  Ok (s, d).

(* sd_operations.hpp:229-261 generate_singles_spin_as *)
Definition generate_singles_spin_as (dbg : bool) (W norb : nat) (state : N)
  (as_orbs : list nat) : res (list N) :=
  let sa := bitset_lo_word W state in
  let sb := bitset_hi_word W state in
  do la <- generate_singles_as dbg (W / 2) norb sa as_orbs;
  do lb <- generate_singles_as dbg (W / 2) norb sb as_orbs;
  spin_singles W sa sb la lb.

(* sd_operations.hpp:264-325 generate_singles_doubles_spin_as *)
Definition generate_singles_doubles_spin_as (dbg : bool) (W norb : nat) (state : N)
  (as_orbs : list nat) : res (list N * list N) :=
  let sa := bitset_lo_word W state in
  let sb := bitset_hi_word W state in
  do a <- generate_singles_doubles_as dbg (W / 2) norb sa as_orbs;
  do b <- generate_singles_doubles_as dbg (W / 2) norb sb as_orbs;
  do s <- spin_singles W sa sb (fst a) (fst b);
  do d <- spin_doubles W sa sb (fst a) (fst b) (snd a) (snd b);
  Ok (s, d).

(* sd_operations.hpp:420-437 generate_cisd_hilbert_space *)
Definition generate_cisd (dbg : bool) (W norb : nat) (state : N) : res (list N) :=
  do sd <- generate_singles_doubles_spin dbg W norb state;
  Ok (state :: fst sd ++ snd sd).
(* sd_operations.hpp:477-493 generate_cis_hilbert_space *)
Definition generate_cis (dbg : bool) (W norb : nat) (state : N) : res (list N) :=
  do s <- generate_singles_spin dbg W norb state;
  Ok (state :: s).

(** ** Full CI space *)

(* replace the last [false] of a list by [true]; None if there is none.
   For booleans this is std::prev_permutation's "largest j with v[j] < v[i]"
   (v[i] = true) followed by the swap. *)
Fixpoint swap_last_false (v : list bool) : option (list bool) :=
  match v with
  | [] => None
  | b :: t => match swap_last_false t with
              | Some t' => Some (b :: t')
              | None => if b then None else Some (true :: t)
              end
  end.

(* std::prev_permutation on vector<bool> (C++ standard 27.8.14 / libstdc++):
   largest i with v[i] > v[i+1] (searching the tail first), swap v[i] with the
   last smaller element after it, reverse the tail. None = returned false (the
   C++ function also resets the range, which no caller uses). *)
Fixpoint prev_permutation (v : list bool) : option (list bool) :=
  match v with
  | [] => None
  | b :: t =>
    match prev_permutation t with
    | Some t' => Some (b :: t')
    | None =>
      match t with
      | false :: _ =>
        if b then match swap_last_false t with
                  | Some t' => Some (false :: rev t')
                  | None => None
                  end
        else None
      | _ => None
      end
    end
  end.

(* sd_operations.hpp:446-451: the bit string of v *)
Fixpoint comb_bits (W : nat) (v : list bool) (i : nat) (temp : N) : N :=
  match v with
  | [] => temp
  | b :: t => comb_bits W t (S i) (if b then N.lor temp (bs_shl W 1 i) else temp)
  end.

(* sd_operations.hpp:445-454: do { store } while(prev_permutation) *)
Fixpoint combs_loop (fuel W : nat) (v : list bool) : res (list N) :=
  match fuel with
  | 0 => Err Hang
  | S f =>
    let temp := comb_bits W v 0 0 in
    match prev_permutation v with
    | Some v' => do l <- combs_loop f W v'; Ok (temp :: l)
    | None => Ok [temp]
    end
  end.

(* sd_operations.hpp:439-457 generate_combs; fill_n past the end is undefined *)
Definition generate_combs (fuel W nbits nset : nat) : res (list N) :=
  if nbits <? nset then Err UB
  else combs_loop fuel W (repeat true nset ++ repeat false (nbits - nset)).

(* sd_operations.hpp:459-475 generate_hilbert_space *)
Definition generate_hilbert_space (fuel W norbs nalpha nbeta : nat) : res (list N) :=
  do la <- generate_combs fuel W norbs nalpha;
  do lb <- generate_combs fuel W norbs nbeta;
  Ok (map (fun p => N.lor (fst p) (bs_shl W (snd p) (W / 2))) (list_prod la lb)).

(** ** Phases *)

(* sd_operations.hpp:496-499 first_occupied_flipped; [e]: what happens to the
   caller's next use of the index 2^32-1 returned when there is no such bit *)
Definition first_occupied_flipped (e : err) (W : nat) (state ex : N) : res nat :=
  ffs_m1 e W (N.land state ex).

(* sd_operations.hpp:502-512 single_excitation_sign; the double -1./1. is the
   boolean "negative" *)
Definition single_excitation_sign (W : nat) (state : N) (p q : nat) : res bool :=
  do m <- (if q <? p then do m1 <- full_mask W p; do m2 <- full_mask W (q + 1);
                          Ok (N.land state (N.lxor m1 m2))
           else do m1 <- full_mask W q; do m2 <- full_mask W (p + 1);
                Ok (N.land state (N.lxor m1 m2)));
  Ok (Nat.odd (bs_count m)).

(* sd_operations.hpp:515-524 single_excitation_sign_indices: (o1, v1, negative) *)
Definition single_excitation_sign_indices (W : nat) (bra ket ex : N)
  : res (nat * nat * bool) :=
  do o1 <- first_occupied_flipped UB W ket ex;
  do v1 <- first_occupied_flipped UB W bra ex;
  do sg <- single_excitation_sign W ket v1 o1;
  Ok (o1, v1, sg).

(* sd_operations.hpp:527-542 doubles_sign_indices: (o1, v1, o2, v2, negative) *)
Definition doubles_sign_indices (W : nat) (bra ket ex : N)
  : res (nat * nat * nat * nat * bool) :=
  do o1 <- first_occupied_flipped Throw W ket ex;
  do v1 <- first_occupied_flipped Throw W bra ex;
  do sg <- single_excitation_sign W ket v1 o1;
  do ket <- (do k <- bs_flip W ket o1; bs_flip W k v1);
  do ex <- (do e <- bs_flip W ex o1; bs_flip W e v1);
  do o2 <- first_occupied_flipped UB W ket ex;
  do v2 <- first_occupied_flipped UB W bra ex;
  do sg2 <- single_excitation_sign W ket v2 o2;
  Ok (o1, v1, o2, v2, xorb sg sg2).

(* sd_operations.hpp:545-550 doubles_sign *)
Definition doubles_sign (W : nat) (bra ket ex : N) : res bool :=
  do t <- doubles_sign_indices W bra ket ex;
  let '(_, _, _, _, sg) := t in Ok sg.

(** ** Residues *)

(* iteration space "for i; for j > i" over one list *)
Definition ordered_pairs {A} (l : list A) : list (A * A) :=
  flat_map (fun io => map (fun j => (fst io, j)) (snd io)) (tails l).

(* sd_operations.hpp:573 / :581: state & ~((one << i) | (one << j)) in the
   half width *)
Definition clear_two (H : nat) (s : N) (ij : nat * nat) : N :=
  N.land s (bs_not H (N.lor (bs_shl H 1 (fst ij)) (bs_shl H 1 (snd ij)))).

(* sd_operations.hpp:553-593 generate_residues; it appends to [res] *)
Definition generate_residues (W : nat) (state : N) (res0 : list N) : res (list N) :=
  let sa := bitset_lo_word W state in
  let sb := bitset_hi_word W state in
  let H := W / 2 in
  do oa <- bits_to_indices H sa;
  do ob <- bits_to_indices H sb;
  do l1 <- mapM (fun ij => join_spin W (clear_two H sa ij) sb) (ordered_pairs oa);
  do l2 <- mapM (fun ij => join_spin W sa (clear_two H sb ij)) (ordered_pairs ob);
  do l3 <- mapM (fun ij =>
         do m <- join_spin W (bs_shl H 1 (fst ij)) (bs_shl H 1 (snd ij));
         Ok (N.land state (bs_not W m))) (list_prod oa ob);
  Ok (res0 ++ l1 ++ l2 ++ l3).

(** ** Canonical strings *)

(* sd_operations.hpp:601-610: the character of orbital i *)
Definition orb_char (a b : bool) : ascii :=
  if a && b then "2" else if a then "u" else if b then "d" else "0".

(* sd_operations.hpp:595-612 to_canonical_string *)
Definition to_canonical_string (W : nat) (state : N) : list ascii :=
  map (fun i => orb_char (tb (bitset_lo_word W state) i) (tb (bitset_hi_word W state) i))
      (seq 0 (W / 2)).

(* sd_operations.hpp:617-626: the loop; set() throws beyond the width *)
Fixpoint canon_loop (W : nat) (str : list ascii) (i : nat) (a b : N) : res (N * N) :=
  match str with
  | [] => Ok (a, b)
  | c :: str' =>
    if (c =? "2")%char then
      do a' <- bs_set W a i; do b' <- bs_set W b i; canon_loop W str' (S i) a' b'
    else if (c =? "u")%char then
      do a' <- bs_set W a i; canon_loop W str' (S i) a' b
    else if (c =? "d")%char then
      do b' <- bs_set W b i; canon_loop W str' (S i) a b'
    else canon_loop W str' (S i) a b
  end.

(* sd_operations.hpp:614-629 from_canonical_string *)
Definition from_canonical_string (W : nat) (str : list ascii) : res N :=
  do ab <- canon_loop W str 0 0 0;
  Ok (N.lor (fst ab) (bs_shl W (snd ab) (W / 2))).
