(** Model of include/macis/hamiltonian_generator.hpp and
    hamiltonian_generator/{impl,matrix_elements,fast_diagonals,double_loop}.hpp,
    util/rdms.hpp and csr_hamiltonian.hpp. No proofs in this file.
    Doubles are exact rationals. *)
From Coq Require Import QArith Qcanon.
From Verif Require Import Base Bits SD Sums.
Local Open Scope nat_scope.

(** ** Integrals *)

(* hamiltonian_generator.hpp:40-46 and impl.hpp:15-23: the spans T_pq_, V_pqrs_
   (column-major views of extent norb_ in every dimension). *)
Record ints := mk_ints {
  norb : nat;
  T_pq : nat -> nat -> Qc;
  V_pqrs : nat -> nat -> nat -> nat -> Qc
}.

(* element access of the spans: an index outside the extent is undefined *)
Definition T_at (h : ints) (p q : nat) : res Qc :=
  if (p <? norb h) && (q <? norb h) then Ok (T_pq h p q) else Err UB.
Definition in4 (n p q r s : nat) : bool := (p <? n) && (q <? n) && (r <? n) && (s <? n).
Definition V_at (h : ints) (p q r s : nat) : res Qc :=
  if in4 (norb h) p q r s then Ok (V_pqrs h p q r s) else Err UB.

(* impl.hpp:36-44: G(i,j,k,l) = V(i,j,k,l) - V(i,l,k,j); the copy followed by
   the in-place subtraction loop is given in closed form (V is not modified) *)
Definition G_pqrs (h : ints) (i j k l : nat) : Qc :=
  (V_pqrs h i j k l - V_pqrs h i l k j)%Qc.
Definition G_at (h : ints) (p q r s : nat) : res Qc :=
  if in4 (norb h) p q r s then Ok (G_pqrs h p q r s) else Err UB.
(* impl.hpp:46-56: G_red(k,i,j) = G(k,k,i,j), V_red(k,i,j) = V(k,k,i,j) *)
Definition Gred_at (h : ints) (k i j : nat) : res Qc := G_at h k k i j.
Definition Vred_at (h : ints) (k i j : nat) : res Qc := V_at h k k i j.
(* impl.hpp:58-69: G2_red(i,j) = 0.5 G(i,i,j,j), V2_red(i,j) = V(i,i,j,j) *)
Definition G2_at (h : ints) (i j : nat) : res Qc :=
  do g <- G_at h i i j j; Ok (half * g)%Qc.
Definition V2_at (h : ints) (i j : nat) : res Qc := V_at h i i j j.

(* for(auto x : l) acc += f(x) *)
Fixpoint sumM {A} (acc : Qc) (l : list A) (f : A -> res Qc) : res Qc :=
  match l with
  | [] => Ok acc
  | x :: r => do v <- f x; sumM (acc + v)%Qc r f
  end.

(** ** Matrix elements *)

(* matrix_elements.hpp:66-71 *)
Definition matrix_element_4 (h : ints) (H : nat) (bra ket ex : N) : res Qc :=
  do t <- doubles_sign_indices H bra ket ex;
  let '(o1, v1, o2, v2, sg) := t in
  do g <- G_at h v1 o1 v2 o2;
  Ok (sgn sg * g)%Qc.

(* matrix_elements.hpp:74-84 *)
Definition matrix_element_22 (h : ints) (H : nat) (ba ka ea bb kb eb : N) : res Qc :=
  do ta <- single_excitation_sign_indices H ba ka ea;
  do tb' <- single_excitation_sign_indices H bb kb eb;
  let '(o1, v1, sa) := ta in
  let '(o2, v2, sb) := tb' in
  do v <- V_at h v1 o1 v2 o2;
  Ok (sgn sa * sgn sb * v)%Qc.

(* matrix_elements.hpp:87-106; G_red_ov[p] = *(&G_red_(0,v1,o1) + p) is
   G_red_(p,v1,o1) in the column-major layout *)
Definition matrix_element_2 (h : ints) (H : nat) (bra ket ex : N) (oa ob : list nat) : res Qc :=
  do t <- single_excitation_sign_indices H bra ket ex;
  let '(o1, v1, sg) := t in
  do h0 <- T_at h v1 o1;
  do h1 <- sumM h0 oa (fun p => Gred_at h p v1 o1);
  do h2 <- sumM h1 ob (fun p => Vred_at h p v1 o1);
  Ok (sgn sg * h2)%Qc.

(* matrix_elements.hpp:109-135; the nested loops run over (q, p) pairs with q
   outermost *)
Definition matrix_element_diag (h : ints) (oa ob : list nat) : res Qc :=
  do h1 <- sumM 0%Qc oa (fun p => T_at h p p);
  do h2 <- sumM h1 ob (fun p => T_at h p p);
  do h3 <- sumM h2 (list_prod oa oa) (fun qp => G2_at h (snd qp) (fst qp));
  do h4 <- sumM h3 (list_prod ob ob) (fun qp => G2_at h (snd qp) (fst qp));
  sumM h4 (list_prod ob oa) (fun qp => V2_at h (snd qp) (fst qp)).

(* matrix_elements.hpp:33-63 matrix_element on spin strings *)
Definition matrix_element_spin (h : ints) (H : nat) (ba ka ea bb kb eb : N)
  (oa ob : list nat) : res Qc :=
  let ca := bs_count ea in
  let cb := bs_count eb in
  if 4 <? ca + cb then Ok 0%Qc
  else if ca =? 4 then matrix_element_4 h H ba ka ea
  else if cb =? 4 then matrix_element_4 h H bb kb eb
  else if (ca =? 2) && (cb =? 2) then matrix_element_22 h H ba ka ea bb kb eb
  else if ca =? 2 then matrix_element_2 h H ba ka ea oa ob
  else if cb =? 2 then matrix_element_2 h H bb kb eb ob oa
  else matrix_element_diag h oa ob.

(* matrix_elements.hpp:15-30 matrix_element on full determinants *)
Definition matrix_element (W : nat) (h : ints) (bra ket : N) : res Qc :=
  let ba := bitset_lo_word W bra in
  let ka := bitset_lo_word W ket in
  let bb := bitset_hi_word W bra in
  let kb := bitset_hi_word W ket in
  let ea := N.lxor ba ka in
  let eb := N.lxor bb kb in
  do oa <- bits_to_indices (W / 2) ba;
  do ob <- bits_to_indices (W / 2) bb;
  matrix_element_spin h (W / 2) ba ka ea bb kb eb oa ob.

(** ** Fast diagonals *)

(* fast_diagonals.hpp:15-29 single_orbital_en *)
Definition single_orbital_en (h : ints) (orb : nat) (ss os : list nat) : res Qc :=
  do e0 <- T_at h orb orb;
  do e1 <- sumM e0 ss (fun q => do a <- G2_at h orb q; do b <- G2_at h q orb; Ok (a + b)%Qc);
  do g <- G2_at h orb orb;
  sumM (e1 - g)%Qc os (fun q => V2_at h orb q).

(* fast_diagonals.hpp:32-51 single_orbital_ens: entry i of the result *)
Definition single_orbital_ens (h : ints) (n : nat) (ss os : list nat) : res (list Qc) :=
  mapM (fun i => single_orbital_en h i ss os) (seq 0 n).

(* fast_diagonals.hpp:54-60 *)
Definition fast_diag_single_en (h : ints) (hol_en par_en : Qc) (hol par : nat) (Hii : Qc) : res Qc :=
  do a <- G2_at h par hol;
  do b <- G2_at h hol par;
  Ok (Hii + par_en - hol_en - a - b)%Qc.
(* fast_diagonals.hpp:63-70 *)
Definition fast_diag_single (h : ints) (ss os : list nat) (hol par : nat) (Hii : Qc) : res Qc :=
  do he <- single_orbital_en h hol ss os;
  do pe <- single_orbital_en h par ss os;
  fast_diag_single_en h he pe hol par Hii.

(* fast_diagonals.hpp:73-85 *)
Definition fast_diag_ss_double_en (h : ints) (eh1 eh2 ep1 ep2 : Qc) (h1 h2 p1 p2 : nat)
  (Hii : Qc) : res Qc :=
  do a1 <- G2_at h h1 h2; do a2 <- G2_at h h2 h1;
  do a3 <- G2_at h p1 p2; do a4 <- G2_at h p2 p1;
  do b1 <- G2_at h p1 h1; do b2 <- G2_at h h1 p1;
  do b3 <- G2_at h p2 h1; do b4 <- G2_at h h1 p2;
  do b5 <- G2_at h p1 h2; do b6 <- G2_at h h2 p1;
  do b7 <- G2_at h p2 h2; do b8 <- G2_at h h2 p2;
  Ok (Hii + ep1 + ep2 - eh1 - eh2 + a1 + a2 + a3 + a4
      - b1 - b2 - b3 - b4 - b5 - b6 - b7 - b8)%Qc.
(* fast_diagonals.hpp:88-99 *)
Definition fast_diag_ss_double (h : ints) (ss os : list nat) (h1 h2 p1 p2 : nat) (Hii : Qc) : res Qc :=
  do eh1 <- single_orbital_en h h1 ss os;
  do eh2 <- single_orbital_en h h2 ss os;
  do ep1 <- single_orbital_en h p1 ss os;
  do ep2 <- single_orbital_en h p2 ss os;
  fast_diag_ss_double_en h eh1 eh2 ep1 ep2 h1 h2 p1 p2 Hii.

(* fast_diagonals.hpp:102-112 *)
Definition fast_diag_os_double_en (h : ints) (ehu ehd epu epd : Qc) (hu hd pu pd : nat)
  (Hii : Qc) : res Qc :=
  do a1 <- V2_at h hu hd; do a2 <- V2_at h pu pd;
  do b1 <- G2_at h pu hu; do b2 <- G2_at h hu pu;
  do b3 <- G2_at h pd hd; do b4 <- G2_at h hd pd;
  do b5 <- V2_at h pu hd; do b6 <- V2_at h hu pd;
  Ok (Hii + epu + epd - ehu - ehd + a1 + a2 - b1 - b2 - b3 - b4 - b5 - b6)%Qc.
(* fast_diagonals.hpp:115-126 *)
Definition fast_diag_os_double (h : ints) (ss os : list nat) (hu hd pu pd : nat) (Hii : Qc) : res Qc :=
  do ehu <- single_orbital_en h hu ss os;
  do ehd <- single_orbital_en h hd os ss;
  do epu <- single_orbital_en h pu ss os;
  do epd <- single_orbital_en h pd os ss;
  fast_diag_os_double_en h ehu ehd epu epd hu hd pu pd Hii.

(** ** Reduced density matrices *)

Definition mat2 := nat -> nat -> Qc.
Definition mat4 := nat -> nat -> nat -> nat -> Qc.

(* ordm(p,q) += v *)
Definition add2 (n : nat) (D : mat2) (p q : nat) (v : Qc) : res mat2 :=
  if (p <? n) && (q <? n)
  then Ok (fun a b => if (a =? p) && (b =? q) then (D a b + v)%Qc else D a b)
  else Err UB.
(* trdm(p,q,r,s) += v *)
Definition add4 (n : nat) (D : mat4) (p q r s : nat) (v : Qc) : res mat4 :=
  if in4 n p q r s
  then Ok (fun a b c d => if (a =? p) && (b =? q) && (c =? r) && (d =? s)
                          then (D a b c d + v)%Qc else D a b c d)
  else Err UB.

(* a range-for loop updating an accumulator *)
Fixpoint foldM {A S} (l : list A) (f : S -> A -> res S) (s : S) : res S :=
  match l with
  | [] => Ok s
  | x :: r => do s' <- f s x; foldM r f s'
  end.

(* util/rdms.hpp:16-25 rdm_contributions_4 *)
Definition rdm_contributions_4 (n H : nat) (bra ket ex : N) (val : Qc) (D : mat4) : res mat4 :=
  do t <- doubles_sign_indices H bra ket ex;
  let '(o1, v1, o2, v2, sg) := t in
  let val := (val * (sgn sg * half))%Qc in
  do D <- add4 n D v1 o1 v2 o2 val;
  do D <- add4 n D v2 o1 v1 o2 (- val)%Qc;
  do D <- add4 n D v1 o2 v2 o1 (- val)%Qc;
  add4 n D v2 o2 v1 o1 val.

(* util/rdms.hpp:28-41 rdm_contributions_22 *)
Definition rdm_contributions_22 (n H : nat) (ba ka ea bb kb eb : N) (val : Qc) (D : mat4) : res mat4 :=
  do ta <- single_excitation_sign_indices H ba ka ea;
  do tb' <- single_excitation_sign_indices H bb kb eb;
  let '(o1, v1, sa) := ta in
  let '(o2, v2, sb) := tb' in
  let val := (val * (sgn sa * sgn sb * half))%Qc in
  do D <- add4 n D v1 o1 v2 o2 val;
  add4 n D v2 o2 v1 o1 val.

(* util/rdms.hpp:44-66 rdm_contributions_2; trdm = None models a null span *)
Definition rdm_contributions_2 (n H : nat) (bra ket ex : N) (oa ob : list nat) (val : Qc)
  (D1 : mat2) (D2 : option mat4) : res (mat2 * option mat4) :=
  do t <- single_excitation_sign_indices H bra ket ex;
  let '(o1, v1, sg) := t in
  do D1 <- add2 n D1 v1 o1 (sgn sg * val)%Qc;
  match D2 with
  | None => Ok (D1, None)
  | Some D2 =>
    let val := (val * (sgn sg * half))%Qc in
    do D2 <- foldM oa (fun D p =>
      do D <- add4 n D v1 o1 p p val;
      do D <- add4 n D p p v1 o1 val;
      do D <- add4 n D v1 p p o1 (- val)%Qc;
      add4 n D p o1 v1 p (- val)%Qc) D2;
    do D2 <- foldM ob (fun D p =>
      do D <- add4 n D v1 o1 p p val;
      add4 n D p p v1 o1 val) D2;
    Ok (D1, Some D2)
  end.

(* util/rdms.hpp:69-97 rdm_contributions_diag *)
Definition rdm_contributions_diag (n : nat) (oa ob : list nat) (val : Qc)
  (D1 : mat2) (D2 : option mat4) : res (mat2 * option mat4) :=
  do D1 <- foldM oa (fun D p => add2 n D p p val) D1;
  do D1 <- foldM ob (fun D p => add2 n D p p val) D1;
  match D2 with
  | None => Ok (D1, None)
  | Some D2 =>
    let val := (val * half)%Qc in
    let same D qp := let '(q, p) := qp in
      do D <- add4 n D p p q q val; add4 n D p q p q (- val)%Qc in
    do D2 <- foldM (list_prod oa oa) same D2;
    do D2 <- foldM (list_prod ob ob) same D2;
    do D2 <- foldM (list_prod ob oa) (fun D qp => let '(q, p) := qp in
      do D <- add4 n D p p q q val; add4 n D q q p p val) D2;
    Ok (D1, Some D2)
  end.

(* util/rdms.hpp:100-132 rdm_contributions; "and trdm_ptr" guards included *)
Definition rdm_contributions (n H : nat) (ba ka ea bb kb eb : N) (oa ob : list nat) (val : Qc)
  (D1 : mat2) (D2 : option mat4) : res (mat2 * option mat4) :=
  let ca := bs_count ea in
  let cb := bs_count eb in
  let rest := if ca =? 2 then rdm_contributions_2 n H ba ka ea oa ob val D1 D2
              else if cb =? 2 then rdm_contributions_2 n H bb kb eb ob oa val D1 D2
              else rdm_contributions_diag n oa ob val D1 D2 in
  if 4 <? ca + cb then Ok (D1, D2)
  else match D2 with
       | Some D =>
         if ca =? 4 then do D <- rdm_contributions_4 n H ba ka ea val D; Ok (D1, Some D)
         else if cb =? 4 then do D <- rdm_contributions_4 n H bb kb eb val D; Ok (D1, Some D)
         else if (ca =? 2) && (cb =? 2)
              then do D <- rdm_contributions_22 n H ba ka ea bb kb eb val D; Ok (D1, Some D)
         else rest
       | None => rest
       end.

(* |x| > y on doubles *)
Definition Qcabs (x : Qc) : Qc := if qlt x 0 then (- x)%Qc else x.
Definition abs_gt (x y : Qc) : bool := qlt y (Qcabs x).

(* the constant 1e-16 of double_loop.hpp:153 *)
Definition rdm_cutoff : Qc := Q2Qc (1 # 10000000000000000).

(* double_loop.hpp:133-163: body for one (bra, ket) pair; [ci], [cj] are C[i], C[j].
   ex_total = bra ^ ket is split into halves. *)
Definition rdm_pair (W n : nat) (oa ob : list nat) (bra : N) (ci : Qc)
  (S : mat2 * option mat4) (kc : N * Qc) : res (mat2 * option mat4) :=
  let (ket, cj) := kc in
  if bs_count ket =? 0 then Ok S
  else let ex := N.lxor bra ket in
  if bs_count ex <=? 4 then
    let val := (ci * cj)%Qc in
    if abs_gt val rdm_cutoff then
      rdm_contributions n (W / 2) (bitset_lo_word W bra) (bitset_lo_word W ket) (bitset_lo_word W ex)
        (bitset_hi_word W bra) (bitset_hi_word W ket) (bitset_hi_word W ex) oa ob val (fst S) (snd S)
    else Ok S
  else Ok S.

(* double_loop.hpp:117-165 form_rdms. [bras], [kets]: determinants paired with
   their coefficients (C[i] for bra i, C[j] for ket j). The arrays are
   accumulated into, not cleared. *)
Definition form_rdms (W n : nat) (bras kets : list (N * Qc)) (S : mat2 * option mat4)
  : res (mat2 * option mat4) :=
  foldM bras (fun S bc =>
    let (bra, ci) := bc in
    if bs_count bra =? 0 then Ok S
    else do oa <- bits_to_indices (W / 2) (bitset_lo_word W bra);
         do ob <- bits_to_indices (W / 2) (bitset_hi_word W bra);
         foldM kets (rdm_pair W n oa ob bra ci) S) S.

(** ** CSR Hamiltonian *)

(* sparsexx csr_matrix.hpp:42-50: the stored arrays *)
Record csr := mk_csr {
  csr_m : nat; csr_n : nat; csr_ind : nat;
  rowptr : list nat; colind : list nat; nzval : list Qc
}.

(* double_loop.hpp:60-88: one row; [j] is the index of the first ket of [kets] *)
Fixpoint csr_row (W : nat) (h : ints) (thr : Qc) (bra : N) (oa ob : list nat)
  (j : nat) (kets : list N) : res (list (nat * Qc)) :=
  match kets with
  | [] => Ok []
  | ket :: r =>
    let ex := N.lxor bra ket in
    if (bs_count ket =? 0) || negb (bs_count ex <=? 4) then csr_row W h thr bra oa ob (S j) r
    else
      do v <- matrix_element_spin h (W / 2) (bitset_lo_word W bra) (bitset_lo_word W ket)
                (bitset_lo_word W ex) (bitset_hi_word W bra) (bitset_hi_word W ket)
                (bitset_hi_word W ex) oa ob;
      do t <- csr_row W h thr bra oa ob (S j) r;
      Ok (if abs_gt v thr then (j, v) :: t else t)
  end.

(* double_loop.hpp:46-92: all rows; state = (rowptr reversed, colind, nzval) is
   threaded as lists of rows *)
Definition csr_rows (W : nat) (h : ints) (thr : Qc) (bras kets : list N)
  : res (list (list (nat * Qc))) :=
  mapM (fun bra =>
    if bs_count bra =? 0 then Ok []
    else do oa <- bits_to_indices (W / 2) (bitset_lo_word W bra);
         do ob <- bits_to_indices (W / 2) (bitset_hi_word W bra);
         csr_row W h thr bra oa ob 0 kets) bras.

(* double_loop.hpp:40-44, :89: rowptr[0] = 0, rowptr[i+1] = rowptr[i] + nrow *)
Fixpoint prefix_sums (acc : nat) (l : list nat) : list nat :=
  match l with [] => [acc] | x :: r => acc :: prefix_sums (acc + x) r end.

(* double_loop.hpp:30-98 make_csr_hamiltonian_block_; the constructor
   csr_matrix.hpp:75-83 sets indexing_ = rowptr[0] = 0. index_t is unbounded
   here (overflow of 32-bit rowptr is not modelled). *)
Definition make_csr_block_ (W : nat) (h : ints) (thr : Qc) (bras kets : list N) : res csr :=
  do rows <- csr_rows W h thr bras kets;
  Ok (mk_csr (length bras) (length kets) 0 (prefix_sums 0 (map (@length _) rows))
       (map fst (concat rows)) (map snd (concat rows))).

(* csr_hamiltonian.hpp:22-36 make_csr_hamiltonian_block; the empty case builds
   csr_matrix(nbra, nket, 0, 0) (csr_matrix.hpp:66-73) *)
Definition make_csr_block (W : nat) (h : ints) (thr : Qc) (bras kets : list N) : res csr :=
  if (length bras =? 0) || (length kets =? 0)
  then Ok (mk_csr (length bras) (length kets) 0 (repeat 0 (length bras + 1)) [] [])
  else make_csr_block_ W h thr bras kets.

(* csr_hamiltonian.hpp:38-44 make_csr_hamiltonian *)
Definition make_csr_hamiltonian (W : nat) (h : ints) (thr : Qc) (sds : list N) : res csr :=
  make_csr_block W h thr sds sds.

(* csr_hamiltonian.hpp:59-79 make_dist_csr_hamiltonian on one rank with row
   bounds [st, en): (diagonal tile, off-diagonal tile if more than one rank) *)
Definition make_dist_csr (W : nat) (h : ints) (thr : Qc) (sds : list N) (nranks st en : nat)
  : res (csr * option csr) :=
  let mine := firstn (en - st) (skipn st sds) in
  do d <- make_csr_block W h thr mine mine;
  if 1 <? nranks then
    let off := firstn st sds ++ repeat 0%N (en - st) ++ skipn en sds in
    do o <- make_csr_block W h thr mine off;
    Ok (d, Some o)
  else Ok (d, None).
