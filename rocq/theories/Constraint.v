(** Model of include/macis/asci/mask_constraints.hpp and of
    asci_contributions_constraint (determinant_search.hpp:143-391), the
    multi-rank search path. No proofs in this file. Counters of type size_t are
    natural numbers without overflow. *)
From Coq Require Import QArith Qcanon Sorting.Permutation Sorting.Sorted.
From Verif Require Import Base Nondet Bits SD Sums Ham Asci.
Local Open Scope nat_scope.

(* mask_constraints.hpp:17-22 wfn_constraint *)
Record constraint := mk_con { con_C : N; con_B : N; con_min : nat }.

(* mask_constraints.hpp:24-36 make_triplet; to_ullong throws beyond 64 bits *)
Definition make_triplet (W i j k : nat) : res constraint :=
  do c <- excite W 0 [i; j; k];
  do b <- bs_to_u64 (bs_shl W 1 k);
  Ok (mk_con c (bs_of_u64 W (b - 1)) k).
(* mask_constraints.hpp:38-50 make_quad *)
Definition make_quad (W i j k l : nat) : res constraint :=
  do c <- excite W 0 [i; j; k; l];
  do b <- bs_to_u64 (bs_shl W 1 l);
  Ok (mk_con c (bs_of_u64 W (b - 1)) l).

(* mask_constraints.hpp:52-55 satisfies_constraint *)
Definition satisfies_constraint (det C : N) (C_min : nat) : bool :=
  (bs_count (N.land det C) =? bs_count C) && (bs_count (bs_shr (N.lxor det C) C_min) =? 0).

(* mask_constraints.hpp:57-78 generate_constraint_single_excitations: the bits
   an electron may leave and those it may enter. C.count() - 1 is size_t. *)
Definition con_single_ex (W : nat) (det C Om B : N) : N * N :=
  if (N.of_nat (bs_count (N.land det C)) <? size_sub (bs_count C) 1)%N then (0, 0)%N
  else
    let o := N.lxor det C in
    let v := N.land (N.land (bs_not W det) Om) B in
    let '(o, v) := if bs_count (N.land o C) =? 1
                   then let v := N.land o C in (N.lxor o v, v) else (o, v) in
    let o_nb := N.land o (bs_not W B) in
    if 1 <? bs_count o_nb then (0, 0)%N
    else if bs_count o_nb =? 1 then (o_nb, v) else (o, v).

(* determinant_contributions.hpp:162-170 generate_pairs *)
Definition generate_pairs (W : nat) (inds : list nat) : res (list N) :=
  mapM (fun p => excite W 0 [fst p; snd p])
       (flat_map (fun ir => map (pair (fst ir)) (snd ir)) (tails inds)).

(* mask_constraints.hpp:80-130 generate_constraint_double_excitations *)
Definition con_double_ex (W : nat) (det C Om B : N) : res (list N * list N) :=
  if (N.land det C =? 0)%N then Ok ([], [])
  else
    let o := N.lxor det C in
    let v := N.land (N.land (bs_not W det) Om) B in
    if 3 <=? bs_count (N.land o C) then Ok ([], [])
    else
      let '(o, v) := if bs_count (N.land o C) =? 2
                     then let v := N.land o C in (N.lxor o v, v) else (o, v) in
      do virt_ind <- bits_to_indices W v;
      let o_and_t := N.land o C in
      do ov <- (if bs_count o_and_t =? 1
                then do V <- mapM (bs_flip W o_and_t) virt_ind; Ok (N.lxor o o_and_t, V)
                else do V <- generate_pairs W virt_ind; Ok (o, V));
      let (o, V) := ov in
      let o_nb := N.land o (bs_not W B) in
      if 2 <? bs_count o_nb then Ok ([], V)
      else
        do Om' <- (if bs_count o_nb =? 1
                  then do occ <- bits_to_indices W (N.land o B); mapM (bs_flip W o_nb) occ
                  else let o := if bs_count o_nb =? 2 then o_nb else o in
                       do occ <- bits_to_indices W o; generate_pairs W occ);
        Ok (Om', V).

(* mask_constraints.hpp:132-149 generate_constraint_singles; [old] is the
   content of t_singles on entry, which an early return leaves in place *)
Definition generate_constraint_singles (W : nat) (det C Om B : N) (old : list N) : res (list N) :=
  let (o, v) := con_single_ex W det C Om B in
  if (bs_count o =? 0) || (bs_count v =? 0) then Ok old
  else
    do occ <- bits_to_indices W o;
    do vir <- bits_to_indices W v;
    mapM (fun ia => excite W det [fst ia; snd ia]) (list_prod occ vir).

(* mask_constraints.hpp:151-156 count_constraint_singles *)
Definition count_constraint_singles (W : nat) (det C Om B : N) : nat :=
  let (o, v) := con_single_ex W det C Om B in bs_count o * bs_count v.

(* mask_constraints.hpp:158-170 generate_constraint_doubles *)
Definition generate_constraint_doubles (W : nat) (det C Om B : N) : res (list N) :=
  do ov <- con_double_ex W det C Om B;
  Ok (flat_map (fun ij => map (fun ab => N.lor (N.lxor det ij) ab) (snd ov)) (fst ov)).

(* mask_constraints.hpp:172-222 count_constraint_doubles. (n * (n - 1)) / 2 in
   unsigned arithmetic is 0 for n = 0, as here. *)
Definition count_constraint_doubles (W : nat) (det C Om B : N) : nat :=
  if (N.land det C =? 0)%N then 0
  else
    let o := N.lxor det C in
    let v := N.land (N.land (bs_not W det) Om) B in
    if 3 <=? bs_count (N.land o C) then 0
    else
      let '(o, v) := if bs_count (N.land o C) =? 2
                     then let v := N.land o C in (N.lxor o v, v) else (o, v) in
      let nv := bs_count v in
      let o_and_t := N.land o C in
      let '(o, nv_pairs) := if bs_count o_and_t =? 1 then (N.lxor o o_and_t, nv)
                            else (o, nv * (nv - 1) / 2) in
      let o_nb := N.land o (bs_not W B) in
      if 2 <? bs_count o_nb then 0
      else
        let no_pairs :=
          if bs_count o_nb =? 1 then bs_count (N.land o B)
          else let o := if bs_count o_nb =? 2 then o_nb else o in
               bs_count o * (bs_count o - 1) / 2 in
        no_pairs * nv_pairs.

(* mask_constraints.hpp:224-241 constraint_histogram *)
Definition constraint_histogram (W : nat) (det : N) (n_os_singles n_os_doubles : nat) (T Om B : N)
  : res nat :=
  let ns := count_constraint_singles W det T Om B in
  let nd := count_constraint_doubles W det T Om B in
  do T_min <- ffs_m1 UB W T;
  Ok (ns + nd + ns * n_os_singles +
      (if satisfies_constraint det T T_min then n_os_singles + n_os_doubles + 1 else 0)).

(** ** dist_constraint_general *)

(* mask_constraints.hpp:509-512, :547-552: the work of one constraint *)
Definition con_work (W norb ns nd : nat) (alphas : list N) (c : constraint) : res nat :=
  do Om <- full_mask W norb;
  do ws <- mapM (fun al => constraint_histogram W al ns nd (con_C c) Om (con_B c)) alphas;
  Ok (list_sum ws).

(* loop order of mask_constraints.hpp:503-505 *)
Definition triplets (norb : nat) : list (nat * nat * nat) :=
  flat_map (fun i => flat_map (fun j => map (fun k => (i, j, k)) (seq 0 j)) (seq 0 i)) (seq 0 norb).

(* mask_constraints.hpp:536-545: the constraints with one more orbital *)
Definition con_children (W : nat) (c : constraint) : res (list constraint) :=
  mapM (fun q => do C' <- bs_flip W (con_C c) q;
                 Ok (mk_con C' (bs_shr (con_B c) (con_min c - q)) q)) (seq 0 (con_min c)).

(* a list of constraints with their non-zero work and the total work:
   mask_constraints.hpp:509-514, :547-554 *)
Definition with_work (W norb ns nd : nat) (alphas : list N) (cs : list constraint)
  : res (list (constraint * nat) * nat) :=
  do l <- mapM (fun c => do w <- con_work W norb ns nd alphas c; Ok (c, w)) cs;
  Ok (filter (fun p => negb (snd p =? 0)) l, list_sum (map snd l)).

(* mask_constraints.hpp:519-557: the splitting levels. [avg]: local_average *)
Fixpoint split_levels (n W norb ns nd : nat) (alphas : list N) (avg : nat)
  (l : list (constraint * nat)) : Nondet.nd (list (constraint * nat)) :=
  match n with
  | 0 => ret l
  | S n' =>
    any pr <- std_partition (fun a : constraint * nat => snd a <=? avg) l;
    match snd pr with
    | [] => ret (fst pr)
    | big =>
      any cs <- det (mapM (fun p => con_children W (fst p)) big);
      any nw <- det (with_work W norb ns nd alphas (concat cs));
      split_levels n' W norb ns nd alphas avg (fst pr ++ fst nw)
    end
  end.

(* std::min_element: the first smallest *)
Fixpoint min_index_from (i best : nat) (bv : nat) (l : list nat) : nat :=
  match l with
  | [] => best
  | x :: r => if x <? bv then min_index_from (S i) i x r else min_index_from (S i) best bv r
  end.
Definition min_index (l : list nat) : nat :=
  match l with [] => 0 | x :: r => min_index_from 1 0 x r end.
Fixpoint add_at (i w : nat) (l : list nat) : list nat :=
  match l, i with
  | [], _ => []
  | x :: r, 0 => x + w :: r
  | x :: r, S i' => x :: add_at i' w r
  end.
(* mask_constraints.hpp:585-595: rank of each constraint, in order *)
Fixpoint assign_work {A} (loads : list nat) (l : list (A * nat)) : list (nat * A) :=
  match l with
  | [] => []
  | (c, w) :: r => let m := min_index loads in (m, c) :: assign_work (add_at m w loads) r
  end.

(* some natural number *)
Definition any_nat : Nondet.nd nat := fun r => exists a, r = Ok a.

(* mask_constraints.hpp:486-602 dist_constraint_general; the result lists the
   constraints of every rank. All ranks execute the same deterministic program
   on the same data, hence resolve ties of std::partition and std::sort in the
   same way. local_average = (0.6 * total_work) / world_size is computed in
   floating point: here it is any natural number, so the theorems hold whatever
   the rounding. *)
Definition dist_constraint_general (W nlevels norb ns nd : nat) (alphas : list N) (world_size : nat)
  : Nondet.nd (list (list constraint)) :=
  any ts <- det (mapM (fun t => let '(i, j, k) := t in make_triplet W i j k) (triplets norb));
  any wt <- det (with_work W norb ns nd alphas ts);
  any avg <- any_nat;
  any cs <- split_levels nlevels W norb ns nd alphas avg (fst wt);
  any sorted <- std_sort (fun a b => snd b <? snd a) cs;
  let owned := assign_work (repeat 0 world_size) sorted in
  ret (map (fun r => map snd (filter (fun p => fst p =? r) owned)) (seq 0 world_size)).

(** ** contributions under a constraint *)

(* the loops "i = fls(o); o.flip(i)" at mask_constraints.hpp:259-265, :362-368,
   run [c] times *)
Fixpoint fls_loop (W : nat) (x : N) (c : nat) : res (list nat) :=
  match c with
  | 0 => Ok []
  | S c' => do i <- fls W x; do x' <- bs_flip W x i; do l <- fls_loop W x' c'; Ok (i :: l)
  end.

(* mask_constraints.hpp:243-291 generate_constraint_singles_contributions_ss;
   the appended elements *)
Definition con_singles_contrib (W : nat) (h : ints) (coeff : Qc) (det C Om B os_det : N)
  (occ occ_othr : list nat) (eps : list Qc) (tol root_diag E0 : Qc) : res (list contrib) :=
  let (o, v) := con_single_ex W det C Om B in
  if (bs_count o =? 0) || (bs_count v =? 0) then Ok []
  else
    do os <- fls_loop W o (bs_count o);
    do vs <- fls_loop W v (bs_count v);
    collect (fun ia => let '(i, a) := ia in
      do h0 <- T_at h a i;
      do h1 <- sumM h0 occ (fun p => Gred_at h p a i);
      do h_el <- sumM h1 occ_othr (fun p => Vred_at h p a i);
      if abs_lt (coeff * h_el)%Qc tol then Ok None
      else
        do e1 <- bs_flip W (N.lor det os_det) i;
        do ex_det <- bs_flip W e1 a;
        do sg <- single_excitation_sign W det a i;
        let h_el := (h_el * sgn sg)%Qc in
        do ei <- at_ eps i; do ea <- at_ eps a;
        do h_diag <- fast_diag_single_en h ei ea i a root_diag;
        do h_el <- fdiv h_el (E0 - h_diag)%Qc;
        Ok (Some (ex_det, (coeff * h_el)%Qc))) (list_prod os vs).

(* mask_constraints.hpp:293-344 generate_constraint_doubles_contributions_ss;
   G_ij[b + a*LDG2] with G_ij = G + (j + i*LDG2)*LDG is G(b,j,a,i) *)
Definition con_ss_doubles_contrib (W : nat) (h : ints) (coeff : Qc) (det C Om B os_det : N)
  (eps : list Qc) (tol root_diag E0 : Qc) : res (list contrib) :=
  do OV <- con_double_ex W det C Om B;
  if (length (fst OV) =? 0) || (length (snd OV) =? 0) then Ok []
  else
    collect (fun q : N * N => let (ij, ab) := q in
      do i <- ffs_m1 UB W ij; do j <- fls W ij;
      do a <- ffs_m1 UB W ab; do b <- fls W ab;
      do G_aibj <- G_at h b j a i;
      if abs_lt (coeff * G_aibj)%Qc tol then Ok None
      else
        let full_ex_spin := N.lor ij ab in
        let ex_det_spin := N.lor (N.lxor det ij) ab in
        do sg <- doubles_sign W det ex_det_spin full_ex_spin;
        let full_ex := N.lor ex_det_spin os_det in
        let h_el := (sgn sg * G_aibj)%Qc in
        do ei <- at_ eps i; do ej <- at_ eps j; do ea <- at_ eps a; do eb <- at_ eps b;
        do h_diag <- fast_diag_ss_double_en h ei ej ea eb i j a b root_diag;
        do h_el <- fdiv h_el (E0 - h_diag)%Qc;
        Ok (Some (full_ex, (coeff * h_el)%Qc))) (list_prod (fst OV) (snd OV)).

(* mask_constraints.hpp:346-404 generate_constraint_doubles_contributions_os;
   sign_same is evaluated once per (i,a) in the C++ code *)
Definition con_os_doubles_contrib (W : nat) (h : ints) (coeff : Qc) (det C Om B os_det : N)
  (occ_othr vir_othr : list nat) (eps_same eps_othr : list Qc) (tol root_diag E0 : Qc)
  : res (list contrib) :=
  let (o, v) := con_single_ex W det C Om B in
  if (bs_count o =? 0) || (bs_count v =? 0) then Ok []
  else
    do os <- fls_loop W o (bs_count o);
    do vs <- fls_loop W v (bs_count v);
    collect (fun q => let '((i, a), (j, b)) := q in
      do sg_same <- single_excitation_sign W det a i;
      do V_aibj <- V_at h a i b j;
      if abs_lt (coeff * V_aibj)%Qc tol then Ok None
      else
        do sg_othr <- single_excitation_sign (W / 2) (bitset_hi_word W os_det) b j;
        do e1 <- bs_flip W (N.lor det os_det) i; do e2 <- bs_flip W e1 a;
        do e3 <- bs_flip W e2 (j + W / 2); do ex_det <- bs_flip W e3 (b + W / 2);
        let h_el := (sgn sg_same * sgn sg_othr * V_aibj)%Qc in
        do ei <- at_ eps_same i; do ej <- at_ eps_othr j; do ea <- at_ eps_same a; do eb <- at_ eps_othr b;
        do h_diag <- fast_diag_os_double_en h ei ej ea eb i j a b root_diag;
        do h_el <- fdiv h_el (E0 - h_diag)%Qc;
        Ok (Some (ex_det, (coeff * h_el)%Qc)))
      (list_prod (list_prod os vs) (list_prod occ_othr vir_othr)).

(** ** determinant_search.hpp:143-391 asci_contributions_constraint *)

(* determinant_search.hpp:175-204 beta_coeff_data *)
Record bcd := mk_bcd {
  b_coeff : Qc; b_string : N; b_occ : list nat; b_vir : list nat;
  b_ens_alpha : list Qc; b_ens_beta : list Qc; b_diag : Qc
}.
Definition make_bcd (dbg : bool) (W : nat) (h : ints) (occ_alpha : list nat) (c : Qc) (w : N)
  : res bcd :=
  let beta_shift := bs_shr w (W / 2) in
  let beta_string := bs_shl W beta_shift (W / 2) in
  do h_diag <- matrix_element W h w w;
  do ov <- bitset_to_occ_vir dbg W (norb h) beta_shift;
  do ea <- single_orbital_ens h (norb h) occ_alpha (fst ov);
  do eb <- single_orbital_ens h (norb h) (fst ov) occ_alpha;
  Ok (mk_bcd c beta_string (fst ov) (snd ov) ea eb h_diag).

(* determinant_search.hpp:161-171: unique alpha strings *)
Definition alpha_part (W : nat) (w : N) : N := N.land w (full_mask_ct (W / 2) W).
Definition unique_alphas (W : nat) (cdets : list N) : nd (list N) :=
  any s <- std_sort (fun x y => match bitset_less W x y with Ok b => b | Err _ => false end)
                    (map (alpha_part W) cdets);
  ret (std_unique N.eqb s).

(* determinant_search.hpp:211-221: the core determinants with alpha string [al] *)
Definition alpha_data (dbg : bool) (W : nat) (h : ints) (C : list Qc) (cdets : list N) (al : N)
  : res (list bcd) :=
  do ov <- bitset_to_occ_vir dbg W (norb h) al;
  collect (fun j => let w := nth j cdets 0%N in
     if (alpha_part W w =? al)%N
     then do c <- at_ C j; do b <- make_bcd dbg W h (fst ov) c w; Ok (Some b)
     else Ok None) (seq 0 (length cdets)).

(* determinant_search.hpp:282-352: the contributions of one unique alpha string
   under one constraint *)
Definition con_alpha_contrib (W : nat) (h : ints) (tol E0 : Qc) (con : constraint)
  (al : N) (bs : list bcd) : res (list contrib) :=
  do Om <- full_mask W (norb h);
  let C := con_C con in let B := con_B con in
  do occ_alpha <- bits_to_indices W al;
  (* :286-296 *)
  do l1 <- mapM (fun b => con_singles_contrib W h (b_coeff b) al C Om B (b_string b) occ_alpha (b_occ b)
                            (b_ens_alpha b) tol (b_diag b) E0) bs;
  (* :299-309 *)
  do l2 <- mapM (fun b => con_ss_doubles_contrib W h (b_coeff b) al C Om B (b_string b)
                            (b_ens_alpha b) tol (b_diag b) E0) bs;
  (* :312-324 *)
  do l3 <- mapM (fun b => con_os_doubles_contrib W h (b_coeff b) al C Om B (b_string b) (b_occ b) (b_vir b)
                            (b_ens_alpha b) (b_ens_beta b) tol (b_diag b) E0) bs;
  (* :328-352 *)
  do l4 <- (if satisfies_constraint al C (con_min con) then
      mapM (fun b =>
        let state := N.lor al (b_string b) in
        let sb := bitset_hi_word W (b_string b) in
        do m1 <- append_singles_contrib W (W / 2) h (b_coeff b) state sb (b_occ b) (b_vir b) occ_alpha
                   (b_ens_beta b) tol (b_diag b) E0;
        do m2 <- append_ss_doubles_contrib W (W / 2) h (b_coeff b) state sb (b_occ b) (b_vir b)
                   (b_ens_beta b) tol (b_diag b) E0;
        Ok (m1 ++ m2)) bs
    else Ok []);
  Ok (concat l1 ++ concat l2 ++ concat l3 ++ concat l4).

(* sort_and_accumulate_asci_pairs(asci_pairs.begin() + k, asci_pairs.end()) and
   erase: an iterator past the end is undefined *)
Definition accumulate_from (W k : nat) (l : list contrib) : nd (list contrib) :=
  if length l <? k then det (Err UB)
  else any r <- sort_and_accumulate W (skipn k l); ret (firstn k l ++ r).

(* determinant_search.hpp:355-379; [size_before] is not updated by the erase *)
Definition con_prune (W : nat) (st : settings) (size_before : nat) (l : list contrib)
  : nd (list contrib) :=
  if pair_size_max st <? length l then
    any pr <- std_partition (fun x => abs_gt (snd x) (rv_prune_tol st)) l;
    let l' := fst pr in
    if pair_size_max st <? length l' then accumulate_from W size_before l' else ret l'
  else ret l.

(* determinant_search.hpp:281-380: loop over unique alpha strings *)
Fixpoint con_alpha_loop (W : nat) (st : settings) (h : ints) (E0 : Qc) (con : constraint)
  (size_before : nat) (uad : list (N * list bcd)) (acc : list contrib) : nd (list contrib) :=
  match uad with
  | [] => ret acc
  | (al, bs) :: r =>
    any l <- det (con_alpha_contrib W h (h_el_tol st) E0 con al bs);
    any acc' <- con_prune W st size_before (acc ++ l);
    con_alpha_loop W st h E0 con size_before r acc'
  end.
(* determinant_search.hpp:273-388: loop over the constraints of this rank *)
Fixpoint con_loop (W : nat) (st : settings) (h : ints) (E0 : Qc) (uad : list (N * list bcd))
  (cns : list constraint) (acc : list contrib) : nd (list contrib) :=
  match cns with
  | [] => ret acc
  | con :: r =>
    any l <- con_alpha_loop W st h E0 con (length acc) uad acc;
    any acc' <- accumulate_from W (length acc) l;
    con_loop W st h E0 uad r acc'
  end.

(* run a possibly non-deterministic call for each element *)
Fixpoint mapND {A B} (f : A -> nd B) (l : list A) : nd (list B) :=
  match l with
  | [] => ret []
  | a :: r => any b <- f a; any bs <- mapND f r; ret (b :: bs)
  end.

(* determinant_search.hpp:143-391 asci_contributions_constraint on every rank:
   the list of the ranks' results. [level]: constraint_level. The size of
   asci_pairs reserved at :265-270 has no effect. *)
Definition asci_contributions_constraint (dbg : bool) (W : nat) (st : settings) (level : nat)
  (h : ints) (E0 : Qc) (C : list Qc) (cdets : list N) (world_size : nat)
  : nd (list (list contrib)) :=
  any ua <- unique_alphas W cdets;
  any uad <- det (mapM (fun al => do d <- alpha_data dbg W h C cdets al; Ok (al, d)) ua);
  match ua with
  | [] => det (Err UB)
  | a0 :: _ =>
    let n_occ := bs_count a0 in
    let n_vir := norb h - n_occ in
    let ns := n_occ * n_vir in
    let nd := ns * (ns + 1 - norb h) / 4 in
    any cns <- dist_constraint_general W level (norb h) ns nd ua world_size;
    mapND (fun cs => con_loop W st h E0 uad cs []) cns
  end.
