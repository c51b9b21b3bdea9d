(** Properties C41, C42, C43: sparse products and row tiling. *)
From Coq Require Import QArith Qcanon.
From Verif Require Import Base Spec Sums Nondet Ham SparseSpec CsrView Dist DistProofs Spmv SpmvSpec PropsHamGlue SpmvGlue.
Local Open Scope nat_scope.

(** * C41 *)
(* For every order in which the iterations of the parallel loop take place.
   [csr_entry A i j] is the matrix entry (SparseSpec.v, CsrView.v); columns of V
   and AV are k * LDV and k * LDAV apart; nothing outside the M rows of the K
   columns of AV changes. *)
Theorem C41_csr_product : forall K alpha A V LDV beta AV LDAV,
  csr_wf A ->
  (forall k, k < K -> k * LDV + csr_n A <= length V) ->
  (csr_m A <= LDAV \/ K <= 1) -> (forall k, k < K -> k * LDAV + csr_m A <= length AV) ->
  always (gespmbv K alpha A (map Some V) LDV beta AV LDAV) (fun AV' => length AV' = length AV /\
    (forall k i, k < K -> i < csr_m A -> nth (i + k * LDAV) AV' 0%Qc =
       (alpha * sum (seq 0 (csr_n A)) (fun j => csr_entry A i j * nth (k * LDV + j) V 0%Qc)
        + beta * nth (i + k * LDAV) AV 0%Qc)%Qc) /\
    (forall p, (forall k i, k < K -> i < csr_m A -> p <> i + k * LDAV) -> nth p AV' 0%Qc = nth p AV 0%Qc)).
Proof. exact c41. Qed.
Print Assumptions C41_csr_product.

(* the same for coordinate-format matrices counted from 0 *)
Theorem C41_coo_product_partial : forall K alpha A V LDV beta AV LDAV,
  coo_wf A -> coo_ind A = 0 ->
  (forall k, k < K -> k * LDV + coo_n A <= length V) ->
  (coo_m A <= LDAV \/ K <= 1) -> (forall k, k < K -> k * LDAV + coo_m A <= length AV) ->
  always (gespmbv_coo K alpha A (map Some V) LDV beta AV LDAV) (fun AV' => length AV' = length AV /\
    (forall k i, k < K -> i < coo_m A -> nth (i + k * LDAV) AV' 0%Qc =
       (alpha * sum (seq 0 (coo_n A)) (fun j => coo_entry A i j * nth (k * LDV + j) V 0%Qc)
        + beta * nth (i + k * LDAV) AV 0%Qc)%Qc) /\
    (forall p, (forall k i, k < K -> i < coo_m A -> p <> i + k * LDAV) -> nth p AV' 0%Qc = nth p AV 0%Qc)).
Proof. exact c41_coo. Qed.
Print Assumptions C41_coo_product_partial.

(* false for coordinate-format matrices counted from 1: the index base is ignored *)
Theorem C41_coo_index_base_refuted :
  exists A V AV, coo_wf A /\ coo_m A = 2 /\ coo_n A = 2 /\ length V = 2 /\ length AV = 2 /\
  exists AV', gespmbv_coo 1 1%Qc A (map Some V) 2 0%Qc AV 2 (Ok AV') /\
    nth 0 AV' 0%Qc <> sum (seq 0 2) (fun j => coo_entry A 0 j * nth j V 0%Qc)%Qc.
Proof. exact c41_coo_ref. Qed.
Print Assumptions C41_coo_index_base_refuted.

(* a 1-based 2 by 3 matrix, two columns with padding *)
Example C41_ex : csr_wf (mk_csr 2 3 1 [1; 3; 4] [1; 3; 2] [1%Qc; inject 2; inject 3]) /\
  csr_entry (mk_csr 2 3 1 [1; 3; 4] [1; 3; 2] [1%Qc; inject 2; inject 3]) 0 2 = inject 2 /\
  (forall k, k < 2 -> k * 4 + 3 <= length (repeat 1%Qc 8)) /\ (forall k, k < 2 -> k * 3 + 2 <= length (repeat 0%Qc 6)).
Proof. exact c41_ex. Qed.

(** * C42 *)
(* [As], [Vs], [AVs]: the parts of the matrix, of the vector v and of the result
   held by every rank ([dist_part], [dist_entry], [received], [sent] are in
   SpmvSpec.v). The last two bounds come from the int accumulators of the
   offsets. *)
Theorem C42_distributed_product : forall dbg M tiles As Vs AVs v alpha beta,
  tiling 0 M tiles ->
  length As = length tiles -> length Vs = length tiles -> length AVs = length tiles ->
  (forall r A, nth_error As r = Some A -> dist_part M tiles r A) ->
  (forall r A, nth_error As r = Some A -> (Z.of_nat (received tiles A) < 2 ^ 31)%Z) ->
  (forall r t, nth_error tiles r = Some t -> (Z.of_nat (sent As t) < 2 ^ 31)%Z) ->
  (forall r lo hi, nth_error tiles r = Some (lo, hi) ->
     hi - lo <= length (nth r Vs []) /\ hi - lo <= length (nth r AVs []) /\
     forall p, p < hi - lo -> nth p (nth r Vs []) 0%Qc = v (lo + p)) ->
  exists infos, generate_spmv_comm_info dbg As = Ok infos /\ length infos = length tiles /\
    always (pgespmv alpha beta (combine (combine (combine As Vs) AVs) infos))
      (fun out => length out = length tiles /\
        forall r A lo hi, nth_error As r = Some A -> nth_error tiles r = Some (lo, hi) ->
          length (nth r out []) = length (nth r AVs []) /\
          (forall i, i < hi - lo -> nth i (nth r out []) 0%Qc =
            (alpha * sum (seq 0 M) (fun j => dist_entry A lo hi i j * v j) + beta * nth i (nth r AVs []) 0%Qc)%Qc) /\
          (forall i, hi - lo <= i -> nth i (nth r out []) 0%Qc = nth i (nth r AVs []) 0%Qc)).
Proof. exact c42. Qed.
Print Assumptions C42_distributed_product.

(* end to end: the distributed Hamiltonian built by every rank, multiplied with
   the distributed vector, gives the rows of the serial Hamiltonian matrix times
   the vector, whatever the number of ranks *)
Theorem C42_distributed_hamiltonian_product : forall dbg W h thr sds na nb P v alpha' beta',
  spin_width W -> norb h <= W / 2 ->
  (forall p q r s, p < norb h -> q < norb h -> r < norb h -> s < norb h ->
     V_pqrs h p q r s = V_pqrs h r s p q) ->
  (forall b, In b sds -> in_space W (norb h) b /\ size_is (alpha W b) na /\ size_is (beta W b) nb) ->
  0 < P -> (Z.of_nat (length sds * P) < 2 ^ 31)%Z ->
  exists A tiles As infos,
    make_csr_hamiltonian W h thr sds = Ok A /\ default_tiles (length sds) P = Ok tiles /\ length As = P /\
    (forall r, r < P -> exists D O, make_dist_csr_hamiltonian W h thr sds P r = Ok (D, O) /\
        nth_error As r = Some (mk_dist (length sds) tiles D O)) /\
    generate_spmv_comm_info dbg As = Ok infos /\
    forall Vs AVs, length Vs = P -> length AVs = P ->
    (forall r lo hi, nth_error tiles r = Some (lo, hi) ->
       hi - lo <= length (nth r Vs []) /\ hi - lo <= length (nth r AVs []) /\
       forall p, p < hi - lo -> nth p (nth r Vs []) 0%Qc = v (lo + p)) ->
    always (pgespmv alpha' beta' (combine (combine (combine As Vs) AVs) infos))
      (fun out => forall r lo hi, nth_error tiles r = Some (lo, hi) ->
          forall i, i < hi - lo -> nth i (nth r out []) 0%Qc =
            (alpha' * sum (seq 0 (length sds)) (fun j => csr_entry A (lo + i)%nat j * v j)
             + beta' * nth i (nth r AVs []) 0%Qc)%Qc).
Proof. exact c42_ham. Qed.
Print Assumptions C42_distributed_hamiltonian_product.

(* two ranks owning 1 and 3 of 4 rows, with off-diagonal elements on both *)
Example C42_ex : tiling 0 4 [(0, 1); (1, 4)] /\ length ex_dist = 2 /\
  (forall r A, nth_error ex_dist r = Some A -> dist_part 4 [(0, 1); (1, 4)] r A) /\
  map (received [(0, 1); (1, 4)]) ex_dist = [2; 1] /\ map (sent ex_dist) [(0, 1); (1, 4)] = [1; 2].
Proof. exact c42_ex. Qed.

(** * C43 *)
Theorem C43_default_tiles : forall M P, 0 < P ->
  exists t, default_tiles M P = Ok t /\ length t = P /\
    forall r, r < P -> nth_error t r = Some (r * (M / P), if S r =? P then M else (r + 1) * (M / P)).
Proof. exact c43_default. Qed.
Print Assumptions C43_default_tiles.

(* the tiles are consecutive and cover [0, M); every row has exactly one owner *)
Theorem C43_unique_owner : forall M P, 0 < P ->
  (exists t, default_tiles M P = Ok t /\ tiling 0 M t /\ length t = P) /\
  forall t, tiling 0 M t -> forall i, i < M -> exists r x y, nth_error t r = Some (x, y) /\ x <= i < y /\
      forall r' x' y', nth_error t r' = Some (x', y') -> x' <= i < y' -> r' = r.
Proof. exact c43_owner. Qed.
Print Assumptions C43_unique_owner.

(* a custom partitioning is accepted exactly when it is such a tiling *)
Theorem C43_custom_tiles : forall M P t, 0 < P ->
  (custom_tiles M P t = Ok t <-> length t = P /\ tiling 0 M t).
Proof. exact c43_custom. Qed.
Print Assumptions C43_custom_tiles.
Theorem C43_custom_tiles_rejected : forall M P t, 0 < P ->
  ~ (length t = P /\ tiling 0 M t) -> custom_tiles M P t = Err Throw.
Proof. exact c43_custom_throws. Qed.
Print Assumptions C43_custom_tiles_rejected.

(* copying a distributed matrix with custom tiles forgets them, and the copy is
   no longer a distributed matrix *)
Theorem C43_copy_keeps_tiles_refuted :
  exists M P tiles r A A', custom_tiles M P tiles = Ok tiles /\ dist_part M tiles r A /\
    dist_copy P A = Ok A' /\ d_tiles A' <> d_tiles A /\ ~ dist_part M (d_tiles A') r A'.
Proof. exact c43_copy_ref. Qed.
Print Assumptions C43_copy_keeps_tiles_refuted.
Example C43_ex : default_tiles 3 5 = Ok [(0, 0); (0, 0); (0, 0); (0, 0); (0, 3)] /\
  custom_tiles 4 2 [(0, 1); (1, 4)] = Ok [(0, 1); (1, 4)] /\ custom_tiles 4 2 [(0, 1); (2, 4)] = Err Throw.
Proof. split; [reflexivity|]. split; reflexivity. Qed.
