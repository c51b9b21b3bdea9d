(** Model of the dense-array utilities: integral transforms, Fock matrices, orbital
    energies, MP2, orbital rotations and their gradients. Paths are relative to
    src/macis unless they start with include. Arrays are lists of exact rationals;
    reading or writing outside is undefined behaviour ([Err UB]). No proofs here. *)
From Coq Require Import QArith Qcanon Bool.
From Verif Require Import Base Ham Asci Mem.
Local Open Scope nat_scope.

Definition loop2 (n m : nat) : list (nat * nat) := list_prod (seq 0 n) (seq 0 m).
Definition loop3 (n m k : nat) : list (nat * nat * nat) := list_prod (loop2 n m) (seq 0 k).
Definition loop4 (n m k l : nat) : list (nat * nat * (nat * nat)) := list_prod (loop2 n m) (loop2 k l).
Definition twice (x : Qc) : Qc := (x + x)%Qc.
Definition half_ : Qc := Q2Qc (1 # 2).

(* blas::gemm(ColMajor, transA, NoTrans, m, n, k, 1.0, A + a0, LDA, B + b0, LDB, 0.0,
   C + c0, LDC), the only form used by the functions below. A leading dimension that
   is too small is rejected (reference BLAS: LD < max(1, rows)). *)
Definition gemm (transA : bool) (m n k : nat) (A : list Qc) (a0 LDA : nat) (B : list Qc) (b0 LDB : nat)
    (C : list Qc) (c0 LDC : nat) : res (list Qc) :=
  if (LDA <? Nat.max 1 (if transA then k else m)) || (LDB <? Nat.max 1 k) || (LDC <? Nat.max 1 m) then Err Throw
  else foldM (loop2 m n) (fun C ij =>
    let '(i, j) := ij in
    do v <- sumM 0%Qc (seq 0 k) (fun l =>
      do a <- at_ A (a0 + (if transA then l + i * LDA else i + l * LDA));
      do b <- at_ B (b0 + l + j * LDB);
      Ok (a * b)%Qc);
    put C (c0 + i + j * LDC) v) C.

(** ** transform.cxx *)
(* transform.cxx:22-48 *)
Definition two_index_transform (norb_old norb_new : nat) (X : list Qc) (LDX : nat) (C : list Qc) (LDC : nat)
    (Y : list Qc) (LDY : nat) : res (list Qc) :=
  let TMP := repeat 0%Qc (norb_old * norb_new) in
  do TMP <- gemm false norb_old norb_new norb_old X 0 LDX C 0 LDC TMP 0 norb_old;
  gemm true norb_new norb_new norb_old C 0 LDC TMP 0 norb_old Y 0 LDY.

(* transform.cxx:50-118; LDY is not used *)
Definition four_index_transform (norb_old norb_new : nat) (X : list Qc) (LDX : nat) (C : list Qc) (LDC : nat)
    (Y : list Qc) (LDY : nat) : res (list Qc) :=
  let norb_new2 := norb_new * norb_new in
  let norb_new3 := norb_new2 * norb_new in
  let norb_old2 := norb_old * norb_old in
  let norb_old3 := norb_old2 * norb_old in
  let tmp1 := repeat 0%Qc (Nat.max (norb_new * norb_old3) (norb_old * norb_new3)) in
  let tmp2 := repeat 0%Qc (norb_new2 * norb_old2) in
  do tmp1 <- gemm true norb_new norb_old3 norb_old C 0 LDC X 0 LDX tmp1 0 norb_new;
  do tmp2 <- foldM (seq 0 norb_old2) (fun tmp2 kl =>
    gemm false norb_new norb_new norb_old tmp1 (kl * norb_old * norb_new) norb_new C 0 LDC tmp2 (kl * norb_new2) norb_new) tmp2;
  do tmp1 <- foldM (seq 0 norb_old) (fun tmp1 l =>
    gemm false norb_new2 norb_new norb_old tmp2 (l * norb_new2 * norb_old) norb_new2 C 0 LDC tmp1 (l * norb_new3) norb_new2) tmp1;
  gemm false norb_new3 norb_new norb_old tmp1 0 norb_new3 C 0 LDC Y 0 norb_new3.

(** ** fock_matrices.cxx *)
(* fock_matrices.cxx:15-22 *)
Definition inactive_energy (ninact : nat) (T : list Qc) (LDT : nat) (Fi : list Qc) (LDF : nat) : res Qc :=
  sumM 0%Qc (seq 0 ninact) (fun i =>
    do t <- at_ T (i * (LDT + 1)); do f <- at_ Fi (i * (LDF + 1)); Ok (t + f)%Qc).

(* fock_matrices.cxx:24-42 *)
Definition inactive_fock_matrix (norb ninact : nat) (T : list Qc) (LDT : nat) (V : list Qc) (LDV : nat)
    (Fi : list Qc) (LDF : nat) : res (list Qc) :=
  let LDV2 := LDV * LDV in
  let LDV3 := LDV2 * LDV in
  foldM (loop2 norb norb) (fun Fi pq =>
    let '(p, q) := pq in
    do tmp <- sumM 0%Qc (seq 0 ninact) (fun i =>
      do a <- at_ V (p + q * LDV + i * (LDV2 + LDV3));
      do b <- at_ V (p + q * LDV3 + i * (LDV + LDV2));
      Ok (twice a - b)%Qc);
    do t <- at_ T (p + q * LDT);
    put Fi (p + q * LDF) (t + tmp)%Qc) Fi.

(* fock_matrices.cxx:44-56 *)
Definition active_submatrix_1body (nact ninact : nat) (A_full : list Qc) (LDAF : nat) (A_sub : list Qc) (LDAS : nat)
    : res (list Qc) :=
  foldM (loop2 nact nact) (fun A_sub xy =>
    let '(x, y) := xy in
    let x_off := x + ninact in
    let y_off := y + ninact in
    do a <- at_ A_full (x_off + y_off * LDAF);
    put A_sub (x + y * LDAS) a) A_sub.

(* fock_matrices.cxx:58-81 *)
Definition active_subtensor_2body (nact ninact : nat) (A_full : list Qc) (LDAF : nat) (A_sub : list Qc) (LDAS : nat)
    : res (list Qc) :=
  let LDAF2 := LDAF * LDAF in
  let LDAF3 := LDAF2 * LDAF in
  let LDAS2 := LDAS * LDAS in
  let LDAS3 := LDAS2 * LDAS in
  foldM (loop4 nact nact nact nact) (fun A_sub xyzw =>
    let '((x, y), (z, w)) := xyzw in
    let x_off := x + ninact in
    let y_off := y + ninact in
    let z_off := z + ninact in
    let w_off := w + ninact in
    do a <- at_ A_full (x_off + y_off * LDAF + z_off * LDAF2 + w_off * LDAF3);
    put A_sub (x + y * LDAS + z * LDAS2 + w * LDAS3) a) A_sub.

(* fock_matrices.cxx:83-95: returns Fi, T_active, V_active *)
Definition active_hamiltonian (norb nact ninact : nat) (T_full : list Qc) (LDTF : nat) (V_full : list Qc) (LDVF : nat)
    (Fi : list Qc) (LDFi : nat) (T_active : list Qc) (LDTA : nat) (V_active : list Qc) (LDVA : nat)
    : res (list Qc * list Qc * list Qc) :=
  do V_active <- active_subtensor_2body nact ninact V_full LDVF V_active LDVA;
  do Fi <- inactive_fock_matrix norb ninact T_full LDTF V_full LDVF Fi LDFi;
  do T_active <- active_submatrix_1body nact ninact Fi LDFi T_active LDTA;
  Ok (Fi, T_active, V_active).

(* fock_matrices.cxx:97-120 *)
Definition active_fock_matrix (norb ninact nact : nat) (V : list Qc) (LDV : nat) (A1RDM : list Qc) (LDD : nat)
    (Fa : list Qc) (LDF : nat) : res (list Qc) :=
  let LDV2 := LDV * LDV in
  let LDV3 := LDV2 * LDV in
  foldM (loop2 norb norb) (fun Fa pq =>
    let '(p, q) := pq in
    do tmp <- sumM 0%Qc (loop2 nact nact) (fun vw =>
      let '(v, w) := vw in
      let v_off := v + ninact in
      let w_off := w + ninact in
      do d <- at_ A1RDM (v + w * LDD);
      do a <- at_ V (p + q * LDV + v_off * LDV2 + w_off * LDV3);
      do b <- at_ V (p + q * LDV3 + w_off * LDV + v_off * LDV2);
      Ok (d * (a - half_ * b))%Qc);
    put Fa (p + q * LDF) tmp) Fa.

(* fock_matrices.cxx:122-149 *)
Definition aux_q_matrix (nact norb ninact : nat) (V : list Qc) (LDV : nat) (A2RDM : list Qc) (LDD : nat)
    (Q : list Qc) (LDQ : nat) : res (list Qc) :=
  let LDV2 := LDV * LDV in
  let LDV3 := LDV2 * LDV in
  let LDD2 := LDD * LDD in
  let LDD3 := LDD2 * LDD in
  foldM (loop2 nact norb) (fun Q vp =>
    let '(v, p) := vp in
    do tmp <- sumM 0%Qc (loop3 nact nact nact) (fun wxy =>
      let '(w, x, y) := wxy in
      let w_off := w + ninact in
      let x_off := x + ninact in
      let y_off := y + ninact in
      do d <- at_ A2RDM (v + w * LDD + x * LDD2 + y * LDD3);
      do a <- at_ V (p + w_off * LDV + x_off * LDV2 + y_off * LDV3);
      Ok (d * a)%Qc);
    put Q (v + p * LDQ) (twice tmp)) Q.

(* fock_matrices.cxx:151-179 *)
Definition generalized_fock_matrix (norb ninact nact : nat) (Fi : list Qc) (LDFi : nat) (Fa : list Qc) (LDFa : nat)
    (A1RDM : list Qc) (LDD : nat) (Q : list Qc) (LDQ : nat) (F : list Qc) (LDF : nat) : res (list Qc) :=
  do F <- foldM (loop2 ninact norb) (fun F ip =>
    let '(i, p) := ip in
    do a <- at_ Fi (p + i * LDFi);
    do b <- at_ Fa (p + i * LDFa);
    put F (i + p * LDF) (twice (a + b))) F;
  let X := repeat 0%Qc (norb * nact) in
  do X <- gemm false norb nact nact Fi (ninact * LDFi) LDFi A1RDM 0 LDD X 0 norb;
  foldM (loop2 nact norb) (fun F vp =>
    let '(v, p) := vp in
    let v_off := v + ninact in
    do a <- at_ X (p + v * norb);
    do b <- at_ Q (v + p * LDQ);
    put F (v_off + p * LDF) (a + b)%Qc) F.

(* fock_matrices.cxx:181-205 *)
Definition generalized_fock_matrix_comp_mat1 (norb ninact nact : nat) (Fi : list Qc) (LDFi : nat)
    (V_full : list Qc) (LDV : nat) (A1RDM : list Qc) (LDD1 : nat) (A2RDM : list Qc) (LDD2 : nat)
    (F : list Qc) (LDF : nat) : res (list Qc) :=
  let norb2 := norb * norb in
  do F_active <- active_fock_matrix norb ninact nact V_full LDV A1RDM LDD1 (repeat 0%Qc norb2) norb;
  do Q <- aux_q_matrix nact norb ninact V_full LDV A2RDM LDD2 (repeat 0%Qc (nact * norb)) nact;
  generalized_fock_matrix norb ninact nact Fi LDFi F_active norb A1RDM LDD1 Q nact F LDF.

(* fock_matrices.cxx:207-223 *)
Definition generalized_fock_matrix_comp_mat2 (norb ninact nact : nat) (T : list Qc) (LDT : nat)
    (V_full : list Qc) (LDV : nat) (A1RDM : list Qc) (LDD1 : nat) (A2RDM : list Qc) (LDD2 : nat)
    (F : list Qc) (LDF : nat) : res (list Qc) :=
  do Fi <- inactive_fock_matrix norb ninact T LDT V_full LDV (repeat 0%Qc (norb * norb)) norb;
  generalized_fock_matrix_comp_mat1 norb ninact nact Fi norb V_full LDV A1RDM LDD1 A2RDM LDD2 F LDF.

(* fock_matrices.cxx:225-253 *)
Definition energy_from_generalized_fock (ninact nact : nat) (T : list Qc) (LDT : nat) (A1RDM : list Qc) (LDD : nat)
    (F : list Qc) (LDF : nat) : res Qc :=
  do E <- sumM 0%Qc (seq 0 ninact) (fun i => do t <- at_ T (i * (LDT + 1)); Ok (twice t));
  do E <- sumM E (loop2 nact nact) (fun xy =>
    let '(x, y) := xy in
    let x_off := x + ninact in
    let y_off := y + ninact in
    do d <- at_ A1RDM (x + y * LDD);
    do t <- at_ T (x_off + y_off * LDT);
    Ok (d * t)%Qc);
  do E <- sumM E (seq 0 (nact + ninact)) (fun p => at_ F (p * (LDF + 1)));
  Ok (half_ * E)%Qc.

(** ** orbital_energies.cxx *)
(* orbital_energies.cxx:13-30 *)
Definition canonical_orbital_energies (norb ninact : nat) (T : list Qc) (LDT : nat) (V : list Qc) (LDV : nat)
    (eps : list Qc) : res (list Qc) :=
  let LDV2 := LDV * LDV in
  let LDV3 := LDV2 * LDV in
  foldM (seq 0 norb) (fun eps p =>
    do tmp <- sumM 0%Qc (seq 0 ninact) (fun i =>
      do a <- at_ V (p * (LDV + 1) + i * (LDV2 + LDV3));
      do b <- at_ V (p * (1 + LDV3) + i * (LDV + LDV2));
      Ok (twice a - b)%Qc);
    do t <- at_ T (p * (LDT + 1));
    put eps p (t + tmp)%Qc) eps.

(** ** moller_plesset.cxx *)
(* division of doubles; a zero denominator gives inf or nan *)
Definition div_ (a b : Qc) : res Qc := if Qc_eq_dec b 0%Qc then Err NonFinite else Ok (a / b)%Qc.
(* moller_plesset.cxx:16-38 *)
Definition mp2_t2 (nocc nvir : nat) (V : list Qc) (LDV : nat) (eps T2 : list Qc) : res (list Qc) :=
  let nocc2 := nocc * nocc in
  let nocc2v := nocc2 * nvir in
  let LDV2 := LDV * LDV in
  let LDV3 := LDV2 * LDV in
  foldM (loop4 nocc nocc nvir nvir) (fun T2 ijab =>
    let '((i, j), (a, b)) := ijab in
    let a_off := a + nocc in
    let b_off := b + nocc in
    do v <- at_ V (i + a_off * LDV + j * LDV2 + b_off * LDV3);
    do ei <- at_ eps i;
    do ej <- at_ eps j;
    do ea <- at_ eps a_off;
    do eb <- at_ eps b_off;
    do t <- div_ v (ei + ej - ea - eb)%Qc;
    put T2 (i + j * nocc + a * nocc2 + b * nocc2v) t) T2.

(* moller_plesset.cxx:40-110: returns the printed EMP2 and the density matrix *)
Definition mp2_1rdm (norb nocc nvir : nat) (T : list Qc) (LDT : nat) (V : list Qc) (LDV : nat) (ORDM : list Qc) (LDD : nat)
    : res (Qc * list Qc) :=
  let nocc2 := nocc * nocc in
  let nocc2v := nocc2 * nvir in
  let LDV2 := LDV * LDV in
  let LDV3 := LDV2 * LDV in
  do eps <- canonical_orbital_energies norb nocc T LDT V LDV (repeat 0%Qc norb);
  do T2 <- mp2_t2 nocc nvir V LDV eps (repeat 0%Qc (nocc2v * nvir));
  do EMP2 <- sumM 0%Qc (loop4 nocc nocc nvir nvir) (fun ijab =>
    let '((i, j), (a, b)) := ijab in
    let a_off := a + nocc in
    let b_off := b + nocc in
    do V_abij <- at_ V (a_off + i * norb + b_off * LDV2 + j * LDV3);
    do V_abji <- at_ V (a_off + j * norb + b_off * LDV2 + i * LDV3);
    do t <- at_ T2 (i + j * nocc + a * nocc2 + b * nocc2v);
    Ok (t * (twice V_abij - V_abji))%Qc);
  do ORDM <- foldM (loop2 nocc nocc) (fun ORDM ij =>
    let '(i, j) := ij in
    do tmp <- sumM 0%Qc (loop3 nocc nvir nvir) (fun kab =>
      let '(k, a, b) := kab in
      do t1 <- at_ T2 (i + k * nocc + a * nocc2 + b * nocc2v);
      do t2 <- at_ T2 (j + k * nocc + a * nocc2 + b * nocc2v);
      do t3 <- at_ T2 (j + k * nocc + b * nocc2 + a * nocc2v);
      Ok (t1 * (twice t2 - t3))%Qc);
    do ORDM <- put ORDM (i + j * LDD) (- twice tmp)%Qc;
    if i =? j then do d <- at_ ORDM (i + j * LDD); put ORDM (i + j * LDD) (d + twice 1)%Qc else Ok ORDM) ORDM;
  do ORDM <- foldM (loop2 nvir nvir) (fun ORDM ab =>
    let '(a, b) := ab in
    do tmp <- sumM 0%Qc (loop3 nocc nocc nvir) (fun ijc =>
      let '(i, j, c) := ijc in
      do t1 <- at_ T2 (i + j * nocc + c * nocc2 + a * nocc2v);
      do t2 <- at_ T2 (i + j * nocc + c * nocc2 + b * nocc2v);
      do t3 <- at_ T2 (i + j * nocc + b * nocc2 + c * nocc2v);
      Ok (t1 * (twice t2 - t3))%Qc);
    put ORDM (a + nocc + (b + nocc) * LDD) (twice tmp)) ORDM;
  Ok (EMP2, ORDM).

(* moller_plesset.cxx:112-136; [syev n A LDA] stands for lapack::syev(Vec, Lower, n, A, LDA, w):
   it returns the overwritten array (eigenvectors) and the eigenvalues. Returns ON, NO_C. *)
Definition mp2_natural_orbitals (syev : nat -> list Qc -> nat -> res (list Qc * list Qc)) (norb nocc nvir : nat)
    (T : list Qc) (LDT : nat) (V : list Qc) (LDV : nat) (NO_C : list Qc) (LDC : nat) : res (list Qc * list Qc) :=
  do x <- mp2_1rdm norb nocc nvir T LDT V LDV NO_C LDC;
  let '(_, NO_C) := x in
  do NO_C <- foldM (loop2 norb norb) (fun C ij =>
    let '(i, j) := ij in
    do c <- at_ C (i + j * LDC);
    put C (i + j * LDC) (- c)%Qc) NO_C;
  do y <- syev norb NO_C LDC;
  let '(NO_C, ON) := y in
  do ON <- foldM (seq 0 norb) (fun ON i => do o <- at_ ON i; put ON i (- o)%Qc) ON;
  Ok (ON, NO_C).

(** ** orbital_rotation_utilities.cxx. The pointers to the three blocks are offsets
    [vi], [va], [ai] into one array. *)
(* include/macis/util/orbital_rotation_utilities.hpp:28-34 split_linear_orb_rot *)
Definition split_linear (ni na nv : nat) : nat * nat * nat := (0, nv * ni, nv * ni + nv * na).
(* orbital_rotation_utilities.cxx:13-47 *)
Definition linear_orb_rot_to_matrix (ni na nv : nat) (k : list Qc) (vi va ai : nat) (K : list Qc) (LDK : nat) : res (list Qc) :=
  do K <- foldM (loop2 ni nv) (fun K ia =>
    let '(i, a) := ia in
    let a_off := a + ni + na in
    do k <- at_ k (vi + (a + i * nv));
    do K <- put K (a_off + i * LDK) k;
    put K (i + a_off * LDK) (- k)%Qc) K;
  do K <- foldM (loop2 na nv) (fun K ia =>
    let '(i, a) := ia in
    let i_off := i + ni in
    let a_off := a + ni + na in
    do k <- at_ k (va + (a + i * nv));
    do K <- put K (a_off + i_off * LDK) k;
    put K (i_off + a_off * LDK) (- k)%Qc) K;
  foldM (loop2 ni na) (fun K ia =>
    let '(i, a) := ia in
    let a_off := a + ni in
    do k <- at_ k (ai + (a + i * na));
    do K <- put K (a_off + i * LDK) k;
    put K (i + a_off * LDK) (- k)%Qc) K.
(* orbital_rotation_utilities.cxx:49-81 and :83-115 (fock_to_linear_orb_grad), which
   differ in the value stored for a pair of orbitals *)
Definition pack_blocks (pick : list Qc -> nat -> nat -> res Qc) (ni na nv : nat) (F : list Qc) (G : list Qc) (vi va ai : nat) : res (list Qc) :=
  do G <- foldM (loop2 ni nv) (fun G ia =>
    let '(i, a) := ia in
    let a_off := a + ni + na in
    do f <- pick F a_off i;
    put G (vi + (a + i * nv)) f) G;
  do G <- foldM (loop2 na nv) (fun G ia =>
    let '(i, a) := ia in
    let i_off := i + ni in
    let a_off := a + ni + na in
    do f <- pick F a_off i_off;
    put G (va + (a + i * nv)) f) G;
  foldM (loop2 ni na) (fun G ia =>
    let '(i, a) := ia in
    let a_off := a + ni in
    do f <- pick F a_off i;
    put G (ai + (a + i * na)) f) G.
Definition matrix_to_linear_orb_rot (ni na nv : nat) (F : list Qc) (LDF : nat) (G : list Qc) (vi va ai : nat) : res (list Qc) :=
  pack_blocks (fun F p q => at_ F (p + q * LDF)) ni na nv F G vi va ai.
Definition fock_to_linear_orb_grad (ni na nv : nat) (F : list Qc) (LDF : nat) (G : list Qc) (vi va ai : nat) : res (list Qc) :=
  pack_blocks (fun F p q => do x <- at_ F (p + q * LDF); do y <- at_ F (q + p * LDF); Ok (twice (x - y))) ni na nv F G vi va ai.
(* include/macis/util/orbital_rotation_utilities.hpp:64-91: the overloads for one packed array *)
Definition unpack_rotation (ni na nv : nat) (k : list Qc) (K : list Qc) (LDK : nat) : res (list Qc) :=
  let '(vi, va, ai) := split_linear ni na nv in linear_orb_rot_to_matrix ni na nv k vi va ai K LDK.
Definition pack_rotation (ni na nv : nat) (F : list Qc) (LDF : nat) (G : list Qc) : res (list Qc) :=
  let '(vi, va, ai) := split_linear ni na nv in matrix_to_linear_orb_rot ni na nv F LDF G vi va ai.
Definition pack_gradient (ni na nv : nat) (F : list Qc) (LDF : nat) (G : list Qc) : res (list Qc) :=
  let '(vi, va, ai) := split_linear ni na nv in fock_to_linear_orb_grad ni na nv F LDF G vi va ai.

(** ** orbital_gradient.cxx *)
(* orbital_gradient.cxx:32-67; the second assignment of each iteration reads the first *)
Definition fock_to_gradient (ninact nact nvirt : nat) (F : list Qc) (LDF : nat) (OG : list Qc) (LDOG : nat) : res (list Qc) :=
  let set OG p q :=
    do x <- at_ F (p + q * LDF);
    do y <- at_ F (q + p * LDF);
    do OG <- put OG (p + q * LDOG) (twice (x - y));
    do g <- at_ OG (p + q * LDOG);
    put OG (q + p * LDOG) (- g)%Qc in
  do OG <- foldM (loop2 ninact nvirt) (fun OG ia => let '(i, a) := ia in set OG (a + ninact + nact) i) OG;
  do OG <- foldM (loop2 nact nvirt) (fun OG xa => let '(x, a) := xa in set OG (a + ninact + nact) (x + ninact)) OG;
  foldM (loop2 ninact nact) (fun OG ix => let '(i, x) := ix in set OG (x + ninact) i) OG.

(* orbital_gradient.cxx:69-87: returns T_trans, V_trans, F *)
Definition orbital_rotated_generalized_fock (norb ninact nact : nat) (T : list Qc) (LDT : nat) (V : list Qc) (LDV : nat)
    (A1RDM : list Qc) (LDD1 : nat) (A2RDM : list Qc) (LDD2 : nat) (U : list Qc) (LDU : nat)
    (T_trans : list Qc) (LDTT : nat) (V_trans : list Qc) (LDVT : nat) (F : list Qc) (LDF : nat)
    : res (list Qc * list Qc * list Qc) :=
  do T_trans <- two_index_transform norb norb T LDT U LDU T_trans LDTT;
  do V_trans <- four_index_transform norb norb V LDV U LDU V_trans LDVT;
  do F <- generalized_fock_matrix_comp_mat2 norb ninact nact T_trans LDTT V_trans LDVT A1RDM LDD1 A2RDM LDD2 F LDF;
  Ok (T_trans, V_trans, F).
(* orbital_gradient.cxx:89-103 *)
Definition orbital_rotated_energy (norb ninact nact : nat) (T : list Qc) (LDT : nat) (V : list Qc) (LDV : nat)
    (A1RDM : list Qc) (LDD1 : nat) (A2RDM : list Qc) (LDD2 : nat) (U : list Qc) (LDU : nat)
    (T_trans : list Qc) (LDTT : nat) (V_trans : list Qc) (LDVT : nat) (F : list Qc) (LDF : nat) : res Qc :=
  do x <- orbital_rotated_generalized_fock norb ninact nact T LDT V LDV A1RDM LDD1 A2RDM LDD2 U LDU T_trans LDTT V_trans LDVT F LDF;
  let '(T_trans, _, F) := x in
  energy_from_generalized_fock ninact nact T_trans LDTT A1RDM LDD1 F LDF.
(* orbital_gradient.cxx:105-118 *)
Definition orbital_rotated_energy' (norb ninact nact : nat) (T : list Qc) (LDT : nat) (V : list Qc) (LDV : nat)
    (A1RDM : list Qc) (LDD1 : nat) (A2RDM : list Qc) (LDD2 : nat) (U : list Qc) (LDU : nat) : res Qc :=
  let norb2 := norb * norb in
  let norb4 := norb2 * norb2 in
  orbital_rotated_energy norb ninact nact T LDT V LDV A1RDM LDD1 A2RDM LDD2 U LDU
    (repeat 0%Qc norb2) norb (repeat 0%Qc norb4) norb (repeat 0%Qc norb2) norb.

(** ** orbital_hessian.cxx *)
(* orbital_hessian.cxx:17-67 *)
Definition approx_diag_hessian (ni na nv : nat) (Fi : list Qc) (LDFi : nat) (Fa : list Qc) (LDFa : nat)
    (A1RDM : list Qc) (LDD : nat) (F : list Qc) (LDF : nat) (H : list Qc) (vi va ai : nat) : res (list Qc) :=
  let FIA p := do x <- at_ Fi (p + p * LDFi); do y <- at_ Fa (p + p * LDFa); Ok (x + y)%Qc in
  let FF p := at_ F (p + p * LDF) in
  let ORDM x := at_ A1RDM (x + x * LDD) in
  do H <- foldM (loop2 ni nv) (fun H ia =>
    let '(i, a) := ia in
    do ii_diff <- FIA i;
    do aa <- FIA (a + ni + na);
    put H (vi + (a + i * nv)) (twice (twice (aa - ii_diff)))) H;
  do H <- foldM (loop2 na nv) (fun H ia =>
    let '(i, a) := ia in
    do d <- ORDM i;
    do aa <- FIA (a + ni + na);
    do f <- FF (i + ni);
    put H (va + (a + i * nv)) (twice d * aa - twice f)%Qc) H;
  foldM (loop2 ni na) (fun H ia =>
    let '(i, a) := ia in
    do d <- ORDM a;
    do ii <- FIA i;
    do aa <- FIA (a + ni);
    do f <- FF (a + ni);
    put H (ai + (a + i * na)) (twice d * ii + twice (twice (aa - ii)) - twice f)%Qc) H.

(* include/macis/util/orbital_hessian.hpp:22-30: the overload for one packed array *)
Definition approx_diag_hessian_packed (ni na nv : nat) (Fi : list Qc) (LDFi : nat) (Fa : list Qc) (LDFa : nat)
    (A1RDM : list Qc) (LDD : nat) (F : list Qc) (LDF : nat) (H : list Qc) : res (list Qc) :=
  let '(vi, va, ai) := split_linear ni na nv in
  approx_diag_hessian ni na nv Fi LDFi Fa LDFa A1RDM LDD F LDF H vi va ai.
(* include/macis/util/orbital_hessian.hpp:32-62: from the integrals *)
Definition approx_diag_hessian_integrals (no ni na nv : nat) (T : list Qc) (LDT : nat) (V : list Qc) (LDV : nat)
    (A1RDM : list Qc) (LDD1 : nat) (A2RDM : list Qc) (LDD2 : nat) (H : list Qc) : res (list Qc) :=
  do Fi <- inactive_fock_matrix no ni T LDT V LDV (repeat 0%Qc (no * no)) no;
  do Fa <- active_fock_matrix no ni na V LDV A1RDM LDD1 (repeat 0%Qc (no * no)) no;
  do Q <- aux_q_matrix na no ni V LDV A2RDM LDD2 (repeat 0%Qc (na * no)) na;
  do F <- generalized_fock_matrix no ni na Fi no Fa no A1RDM LDD1 Q na (repeat 0%Qc (no * no)) no;
  approx_diag_hessian_packed ni na nv Fi no Fa no A1RDM LDD1 F no H.
(** ** orbital_steps.cxx *)
(* orbital_steps.cxx:14-31; the rest of the file is disabled by #if 0 *)
Definition precond_cg_orbital_step (no ni na nv : nat) (Fi : list Qc) (LDFi : nat) (Fa : list Qc) (LDFa : nat)
    (F : list Qc) (LDF : nat) (A1RDM : list Qc) (LDD : nat) (OG K_lin : list Qc) : res (list Qc) :=
  let orb_rot_sz := nv * (na + ni) + na * ni in
  do DH <- approx_diag_hessian_packed ni na nv Fi LDFi Fa LDFa A1RDM LDD F LDF (repeat 0%Qc orb_rot_sz);
  foldM (seq 0 orb_rot_sz) (fun K p =>
    do g <- at_ OG p;
    do h <- at_ DH p;
    do x <- div_ (- g)%Qc h;
    put K p x) K_lin.

(** ** orbital_hessian.cxx, continued *)
(* orbital_hessian.cxx:69-102: T[p + o * LDX] is what the code reads (:79) *)
Definition one_index_transformed_hamiltonian (no : nat) (T : list Qc) (LDT : nat) (V : list Qc) (LDV : nat)
    (X : list Qc) (LDX : nat) (Tx : list Qc) (LDTx : nat) (Vx : list Qc) (LDVx : nat) : res (list Qc * list Qc) :=
  do Tx <- foldM (loop2 no no) (fun Tx pq =>
    let '(p, q) := pq in
    do tmp <- sumM 0%Qc (seq 0 no) (fun o =>
      do x1 <- at_ X (p + o * LDX); do t1 <- at_ T (o + q * LDT);
      do x2 <- at_ X (q + o * LDX); do t2 <- at_ T (p + o * LDX);
      Ok (x1 * t1 + x2 * t2)%Qc);
    put Tx (p + q * LDTx) tmp) Tx;
  do Vx <- foldM (loop4 no no no no) (fun Vx pqrs =>
    let '((p, q), (r, s)) := pqrs in
    do tmp <- sumM 0%Qc (seq 0 no) (fun o =>
      do x1 <- at_ X (p + o * LDX); do v1 <- at_ V (o + q * LDV + r * LDV * LDV + s * LDV * LDV * LDV);
      do x2 <- at_ X (q + o * LDX); do v2 <- at_ V (p + o * LDV + r * LDV * LDV + s * LDV * LDV * LDV);
      do x3 <- at_ X (r + o * LDX); do v3 <- at_ V (p + q * LDV + o * LDV * LDV + s * LDV * LDV * LDV);
      do x4 <- at_ X (s + o * LDX); do v4 <- at_ V (p + q * LDV + r * LDV * LDV + o * LDV * LDV * LDV);
      Ok (x1 * v1 + x2 * v2 + x3 * v3 + x4 * v4)%Qc);
    put Vx (p + q * LDVx + r * LDVx * LDVx + s * LDVx * LDVx * LDVx) tmp) Vx;
  Ok (Tx, Vx).

(* orbital_hessian.cxx:104-155 *)
Definition orb_orb_hessian_contract (no ninact na nvirt : nat) (T : list Qc) (LDT : nat) (V : list Qc) (LDV : nat)
    (A1RDM : list Qc) (LDD1 : nat) (A2RDM : list Qc) (LDD2 : nat) (OG K_lin HK_lin : list Qc) : res (list Qc) :=
  let no2 := no * no in
  let no4 := no2 * no2 in
  let orb_rot_sz := nvirt * (na + ninact) + na * ninact in
  do K_full <- unpack_rotation ninact na nvirt K_lin (repeat 0%Qc no2) no;
  do TV <- one_index_transformed_hamiltonian no T LDT V LDV K_full no (repeat 0%Qc no2) no (repeat 0%Qc no4) no;
  let '(Tk, Vk) := TV in
  do Fk <- generalized_fock_matrix_comp_mat2 no ninact na Tk no Vk no A1RDM LDD1 A2RDM LDD2 (repeat 0%Qc no2) no;
  do HK_lin <- pack_gradient ninact na nvirt Fk no HK_lin;
  do Tk <- unpack_rotation ninact na nvirt OG (repeat 0%Qc no2) no;
  do Fk <- gemm false no no no Tk 0 no K_full 0 no Fk 0 no;
  do Tk <- foldM (loop2 no no) (fun Tk pq =>
    let '(p, q) := pq in
    do x <- at_ Fk (p + q * no);
    do y <- at_ Fk (q + p * no);
    put Tk (p + q * no) (x - y)%Qc) Tk;
  do tmp_hk <- pack_rotation ninact na nvirt Tk no (repeat 0%Qc orb_rot_sz);
  foldM (seq 0 orb_rot_sz) (fun H i =>
    do h <- at_ H i;
    do t <- at_ tmp_hk i;
    put H i (h + t)%Qc) HK_lin.
