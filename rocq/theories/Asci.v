(** Model of include/macis/asci/{determinant_contributions,determinant_sort,
    determinant_search,iteration,grow,refine}.hpp (serial paths). No proofs in
    this file. Doubles are exact rationals; a division by zero is the outcome
    [NonFinite]. *)
From Coq Require Import QArith Qcanon Sorting.Permutation Sorting.Sorted.
From Verif Require Import Base Nondet Bits SD Sums Ham.
Local Open Scope nat_scope.

(* determinant_contributions.hpp:16-23 asci_contrib: (state, rv) *)
Notation contrib := (N * Qc)%type.

(** ** determinant_sort.hpp *)

(* determinant_sort.hpp:46-48, :89-91: the comparator, bitset_less on states *)
Definition less (W : nat) (x y : contrib) : bool :=
  match bitset_less W (fst x) (fst y) with Ok b => b | Err _ => false end.
(* determinant_sort.hpp:75, :115 *)
Definition same_state (x y : contrib) : bool := (fst x =? fst y)%N.

(* determinant_sort.hpp:59-71: the accumulation loop. [cur]: the element
   cur_it points to; [zs]: the elements between cur_it and it, already zeroed;
   [l]: the elements from it on. The result is the whole array. *)
Fixpoint accumulate (cur : contrib) (zs l : list contrib) : list contrib :=
  match l with
  | [] => cur :: zs
  | x :: r => if negb (fst x =? fst cur)%N then cur :: zs ++ accumulate x [] r
              else accumulate (fst cur, snd cur + snd x)%Qc (zs ++ [(fst x, 0%Qc)]) r
  end.

(* determinant_sort.hpp:39-84 sort_and_accumulate_asci_pairs (both overloads:
   sort, accumulate, unique, erase) *)
Definition sort_and_accumulate (W : nat) (l : list contrib) : nd (list contrib) :=
  match l with
  | [] => ret []
  | _ => any s <- std_sort (less W) l;
         ret (match s with
              | [] => []
              | c :: r => std_unique same_state (accumulate c [] r)
              end)
  end.

(* std::max(a, b) = (a < b) ? b : a *)
Definition qmax (a b : Qc) : Qc := if qlt a b then b else a.

(* determinant_sort.hpp:102-112: keep the maximum in the first instance; later
   instances are left as they are *)
Fixpoint keep_max (cur : contrib) (zs l : list contrib) : list contrib :=
  match l with
  | [] => cur :: zs
  | x :: r => if negb (fst x =? fst cur)%N then cur :: zs ++ keep_max x [] r
              else keep_max (fst cur, qmax (snd cur) (snd x)) (zs ++ [x]) r
  end.

(* determinant_sort.hpp:86-119 keep_only_largest_copy_asci_pairs *)
Definition keep_only_largest_copy (W : nat) (l : list contrib) : nd (list contrib) :=
  match l with
  | [] => ret []
  | _ => any s <- std_sort (less W) l;
         ret (match s with
              | [] => []
              | c :: r => std_unique same_state (keep_max c [] r)
              end)
  end.

(* determinant_sort.hpp:18-37 reorder_ci_on_coeff. With NDEBUG and different
   lengths the loop reads idx or dets out of range; the model reports the
   failed assertion in both builds. *)
Definition reorder_ci_on_coeff (dets : list N) (C : list Qc) : nd (list N * list Qc) :=
  let c i := nth i C 0%Qc in
  any idx <- std_sort (fun i j => qlt (Qcabs (c j)) (Qcabs (c i))) (seq 0 (length C));
  if length C =? length dets
  then ret (map (fun i => nth i dets 0%N) idx, map c idx)
  else det (Err AssertFail).

(** ** determinant_contributions.hpp *)

(* a loop body that may skip ("continue") or append one element *)
Fixpoint collect {A B} (f : A -> res (option B)) (l : list A) : res (list B) :=
  match l with
  | [] => Ok []
  | a :: r => do o <- f a; do t <- collect f r;
              Ok (match o with Some b => b :: t | None => t end)
  end.

(* a[i] on a C++ array *)
Definition at_ {A} (l : list A) (i : nat) : res A :=
  match nth_error l i with Some x => Ok x | None => Err UB end.

(* x / y on doubles *)
Definition fdiv (x y : Qc) : res Qc := if Qc_eq_dec y 0 then Err NonFinite else Ok (x / y)%Qc.

(* std::abs(x) < tol *)
Definition abs_lt (x tol : Qc) : bool := qlt (Qcabs x) tol.

(* determinant_contributions.hpp:25-66 append_singles_asci_contributions<H, shift>;
   the appended elements. G_kpq + a*LDG + i*LDG2 is the column (.,a,i) of G_red,
   likewise V_red; the pointers passed are those of ham_gen (iteration.hpp:28-30)
   with leading dimension norb. *)
Definition append_singles_contrib (W shift : nat) (h : ints) (coeff : Qc) (state state_same : N)
  (occ vir occ_othr : list nat) (eps : list Qc) (tol root_diag E0 : Qc) : res (list contrib) :=
  collect (fun ia => let '(i, a) := ia in
    do h0 <- T_at h a i;
    do h1 <- sumM h0 occ (fun p => Gred_at h p a i);
    do h_el <- sumM h1 occ_othr (fun p => Vred_at h p a i);
    if abs_lt h_el tol then Ok None
    else
      do e1 <- bs_flip W state (i + shift);
      do ex_det <- bs_flip W e1 (a + shift);
      do sg <- single_excitation_sign (W / 2) state_same a i;
      let h_el := (h_el * sgn sg)%Qc in
      do ei <- at_ eps i; do ea <- at_ eps a;
      do h_diag <- fast_diag_single_en h ei ea i a root_diag;
      do h_el <- fdiv h_el (E0 - h_diag)%Qc;
      Ok (Some (ex_det, (coeff * h_el)%Qc))) (list_prod occ vir).

(* loop order of determinant_contributions.hpp:81-89: ii, aa, jj > ii, bb > aa *)
Definition ss_quads (occ vir : list nat) : list (nat * nat * nat * nat) :=
  flat_map (fun io => flat_map (fun av =>
    flat_map (fun j => map (fun b => (fst io, fst av, j, b)) (snd av)) (snd io))
    (tails vir)) (tails occ).

(* determinant_contributions.hpp:68-120 append_ss_doubles_asci_contributions<H, shift>;
   G[(a + i*LDG)*LDG2 + b + j*LDG] is G(b,j,a,i) *)
Definition append_ss_doubles_contrib (W shift : nat) (h : ints) (coeff : Qc) (state state_spin : N)
  (occ vir : list nat) (eps : list Qc) (tol root_diag E0 : Qc) : res (list contrib) :=
  collect (fun q => let '(i, a, j, b) := q in
    do G_aibj <- G_at h b j a i;
    if abs_lt G_aibj tol then Ok None
    else
      do full_ex_spin <- excite (W / 2) 0 [i; j; a; b];
      let ex_det_spin := N.lxor state_spin full_ex_spin in
      do sg <- doubles_sign (W / 2) state_spin ex_det_spin full_ex_spin;
      do fe <- expand_bitset W (W / 2) full_ex_spin;
      let full_ex := bs_shl W fe shift in
      let ex_det := N.lxor state full_ex in
      let h_el := (sgn sg * G_aibj)%Qc in
      do ei <- at_ eps i; do ej <- at_ eps j; do ea <- at_ eps a; do eb <- at_ eps b;
      do h_diag <- fast_diag_ss_double_en h ei ej ea eb i j a b root_diag;
      do h_el <- fdiv h_el (E0 - h_diag)%Qc;
      Ok (Some (ex_det, (coeff * h_el)%Qc))) (ss_quads occ vir).

(* determinant_contributions.hpp:122-160 append_os_doubles_asci_contributions;
   V_ai[jb*LDV2] is V(a,i,b,j). sign_alpha is evaluated once per (i,a) in the
   C++ code, here once per (i,a,j,b); it has no effect. *)
Definition append_os_doubles_contrib (W : nat) (h : ints) (coeff : Qc) (state sa sb : N)
  (occ_a occ_b vir_a vir_b : list nat) (eps_a eps_b : list Qc) (tol root_diag E0 : Qc)
  : res (list contrib) :=
  collect (fun q => let '((i, a), (j, b)) := q in
    do sg_a <- single_excitation_sign (W / 2) sa a i;
    do V_aibj <- V_at h a i b j;
    if abs_lt V_aibj tol then Ok None
    else
      do sg_b <- single_excitation_sign (W / 2) sb b j;
      do e1 <- bs_flip W state a; do e2 <- bs_flip W e1 i;
      do e3 <- bs_flip W e2 (j + W / 2); do ex_det <- bs_flip W e3 (b + W / 2);
      let h_el := (sgn sg_a * sgn sg_b * V_aibj)%Qc in
      do ei <- at_ eps_a i; do ej <- at_ eps_b j; do ea <- at_ eps_a a; do eb <- at_ eps_b b;
      do h_diag <- fast_diag_os_double_en h ei ej ea eb i j a b root_diag;
      do h_el <- fdiv h_el (E0 - h_diag)%Qc;
      Ok (Some (ex_det, (coeff * h_el)%Qc)))
    (list_prod (list_prod occ_a vir_a) (list_prod occ_b vir_b)).

(** ** determinant_search.hpp *)

(* determinant_search.hpp:34-51 ASCISettings; the fields the modelled code reads *)
Record settings := mk_settings {
  ntdets_max : nat; ntdets_min : nat; ncdets_max : nat;
  h_el_tol : Qc; rv_prune_tol : Qc; pair_size_max : nat;
  just_singles : bool; grow_factor : nat; max_refine_iter : nat;
  refine_energy_tol : Qc
}.

(* determinant_search.hpp:69-118: the contributions of one core determinant.
   [dbg]: assertions enabled *)
Definition det_contributions (dbg : bool) (W : nat) (h : ints) (tol : Qc) (singles_only : bool)
  (E0 coeff : Qc) (state : N) : res (list contrib) :=
  let sa := bitset_lo_word W state in
  let sb := bitset_hi_word W state in
  do ova <- bitset_to_occ_vir dbg (W / 2) (norb h) sa;
  do ovb <- bitset_to_occ_vir dbg (W / 2) (norb h) sb;
  let (oa, va) := ova in
  let (ob, vb) := ovb in
  do ea <- single_orbital_ens h (norb h) oa ob;
  do eb <- single_orbital_ens h (norb h) ob oa;
  do h_diag <- matrix_element W h state state;
  do l1 <- append_singles_contrib W 0 h coeff state sa oa va ob ea tol h_diag E0;
  do l2 <- append_singles_contrib W (W / 2) h coeff state sb ob vb oa eb tol h_diag E0;
  if singles_only then Ok (l1 ++ l2)
  else
    do l3 <- append_ss_doubles_contrib W 0 h coeff state sa oa va ea tol h_diag E0;
    do l4 <- append_ss_doubles_contrib W (W / 2) h coeff state sb ob vb eb tol h_diag E0;
    do l5 <- append_os_doubles_contrib W h coeff state sa sb oa ob va vb ea eb tol h_diag E0;
    Ok (l1 ++ l2 ++ l3 ++ l4 ++ l5).

(* determinant_search.hpp:120-137: pruning after each core determinant *)
Definition prune (W : nat) (st : settings) (l : list contrib) : nd (list contrib) :=
  if pair_size_max st <? length l then
    any pr <- std_partition (fun x => abs_gt (snd x) (rv_prune_tol st)) l;
    let l' := fst pr in
    if pair_size_max st <? length l' then sort_and_accumulate W l' else ret l'
  else ret l.

(* determinant_search.hpp:67-138: the loop over core determinants, from [i] on *)
Fixpoint contributions_loop (dbg : bool) (W : nat) (st : settings) (h : ints) (E0 : Qc)
  (C : list Qc) (i : nat) (cdets : list N) (acc : list contrib) : nd (list contrib) :=
  match cdets with
  | [] => ret acc
  | state :: r =>
    any coeff <- det (at_ C i);
    any l <- det (det_contributions dbg W h (h_el_tol st) (just_singles st) E0 coeff state);
    any acc' <- prune W st (acc ++ l);
    contributions_loop dbg W st h E0 C (S i) r acc'
  end.

(* determinant_search.hpp:53-141 asci_contributions_standard *)
Definition asci_contributions_standard (dbg : bool) (W : nat) (st : settings) (h : ints) (E0 : Qc)
  (C : list Qc) (cdets : list N) : nd (list contrib) :=
  contributions_loop dbg W st h E0 C 0 cdets [].

(* size_t arithmetic *)
Definition size_sub (a b : nat) : N := ((N.of_nat a + 2 ^ 64 - N.of_nat b) mod 2 ^ 64)%N.

(* determinant_search.hpp:528-657: everything after the accumulation, one rank.
   [pairs]: the accumulated contributions *)
Definition select_dets (W : nat) (ndets_max : nat) (cdets : list N) (C : list Qc)
  (pairs : list contrib) : nd (list N) :=
  (* :530 *)
  let scored := map (fun x => (fst x, (- Qcabs (snd x))%Qc)) pairs in
  (* :533-536 *)
  any seeds <- det (mapM (fun i => do c <- at_ C i; Ok (nth i cdets 0%N, Qcabs c))
                         (seq 0 (length cdets)));
  (* :540 *)
  any kept <- keep_only_largest_copy W (scored ++ seeds);
  (* :542-544 *)
  any pr <- std_partition (fun p => qlt (snd p) 0) kept;
  let pairs := fst pr in
  (* :547 *)
  let top_k := size_sub ndets_max (length cdets) in
  (* :565, :622-627 *)
  any sel <- (if (top_k <? N.of_nat (length pairs))%N
              then any ab <- nth_element (fun a b => qlt (Qcabs (snd b)) (Qcabs (snd a)))
                                         (N.to_nat top_k) pairs;
                   ret (fst ab)
              else ret pairs);
  (* :648-654 *)
  ret (map fst sel ++ cdets).

(* determinant_search.hpp:394-663 asci_search on one rank (world_size == 1) *)
Definition asci_search (dbg : bool) (W : nat) (st : settings) (h : ints) (ndets_max : nat)
  (cdets : list N) (E0 : Qc) (C : list Qc) : nd (list N) :=
  any pairs <- asci_contributions_standard dbg W st h E0 C cdets;
  any uniq <- sort_and_accumulate W pairs;
  select_dets W ndets_max cdets C uniq.

(** ** iteration.hpp, grow.hpp, refine.hpp *)

(* The diagonalisation (selected_ci_diag) is a parameter: a set of possible
   outcomes for each determinant list. *)
Definition diag := list N -> nd (Qc * list Qc).

(* a wavefunction with its energy: (E, determinants, coefficients) *)
Definition wfn_state := (Qc * list N * list Qc)%type.

(* iteration.hpp:16-72 asci_iter, one rank *)
Definition asci_iter (dbg : bool) (W : nat) (st : settings) (h : ints) (dg : diag)
  (ndets_max : nat) (s : wfn_state) : nd wfn_state :=
  let '(E0, wfn, X) := s in
  any wX <- (if 1 <? length wfn then reorder_ci_on_coeff wfn X else ret (wfn, X));
  let nkeep := Nat.min (ncdets_max st) (length (fst wX)) in
  any new <- asci_search dbg W st h ndets_max (firstn nkeep (fst wX)) E0 (snd wX);
  any EX <- dg new;
  ret (fst EX, new, snd EX).

(* grow.hpp:45-165: the while loop, grow_with_rot = false; [fuel] bounds the
   number of iterations, running out means that the call is still looping *)
Fixpoint asci_grow (fuel : nat) (dbg : bool) (W : nat) (st : settings) (h : ints) (dg : diag)
  (s : wfn_state) : nd wfn_state :=
  let '(E0, wfn, X) := s in
  if length wfn <? ntdets_max st then
    match fuel with
    | 0 => det (Err Hang)
    | S f =>
      let ndets_new := Nat.min (Nat.max (ntdets_min st) (length wfn * grow_factor st))
                               (ntdets_max st) in
      any s' <- asci_iter dbg W st h dg ndets_new s;
      if length (snd (fst s')) <? ndets_new then det (Err Throw)
      else asci_grow f dbg W st h dg s'
    end
  else ret s.

(* refine.hpp:40-63: the refinement loop, [n] iterations left; falling out of
   the loop without convergence throws *)
Fixpoint refine_loop (n : nat) (dbg : bool) (W : nat) (st : settings) (h : ints) (dg : diag)
  (ndets : nat) (s : wfn_state) : nd wfn_state :=
  match n with
  | 0 => det (Err Throw)
  | S n' =>
    any s' <- asci_iter dbg W st h dg ndets s;
    if negb (length (snd (fst s')) =? ndets) then det (Err Throw)
    else if abs_lt (fst (fst s') - fst (fst s))%Qc (refine_energy_tol st) then ret s'
    else refine_loop n' dbg W st h dg ndets s'
  end.
(* refine.hpp:14-66 asci_refine *)
Definition asci_refine (dbg : bool) (W : nat) (st : settings) (h : ints) (dg : diag)
  (s : wfn_state) : nd wfn_state :=
  refine_loop (max_refine_iter st) dbg W st h dg (length (snd (fst s))) s.
