(** Theorems about the numerical orbital derivatives (C63), stated with DenseSpec and NumGradSpec. *)
From Coq Require Import QArith Qcanon Lia.
From Verif Require Import Base Sums Mem Dense DenseSpec DenseProofs DenseGlue DenseEx Mcscf NumGrad NumGradSpec NumGradProofs NumGradGlue NumGradEx.
From Coq Require Import Qcabs.
Local Open Scope nat_scope.

(** * C63: numerical orbital gradient and Hessian *)
(* every element (a, i) with i < a is the five-point difference, with step 1/1000, of the energy
   along exp(-t K_ai); nothing else in the array changes. Both for every LDOG *)
Theorem C63_gradient : forall expm no ni na T LDT V D LDD1 D2 LDD2, 0 < no -> 0 < LDD1 -> ni + na <= no ->
  fits2 T LDT no no -> fits4 V no no -> fits2 D LDD1 na na -> fits4 D2 LDD2 na -> pair_symmetric no (at4 V no) -> symmetric2 na (at2 D LDD1) ->
  forall (X : nat -> nat -> Qc -> list Qc) OG LDOG, fits2 OG no no no ->
  (forall a i t, i < a < no -> expm no (packed no (fun p q => - t * pair_rotation a i p q)%Qc) = Ok (X a i t) /\ no * no <= length (X a i t)) ->
  exists OG', numerical_orbital_gradient expm no ni na T LDT V no D LDD1 D2 LDD2 OG LDOG = Ok OG' /\ length OG' = length OG /\
    (forall a i, i < a < no -> at2 OG' no a i =
       five_point (Q2Qc (Qmake 1 1000)) (fun t => energy_in no ni na (at2 T LDT) (at4 V no) (at2 D LDD1) (at4 D2 LDD2) (at2 (X a i t) no))) /\
    forall p, (forall a i, i < a < no -> p <> a + i * no) -> nth p OG' 0%Qc = nth p OG 0%Qc.
Proof. exact num_gradient_ok. Qed.
Print Assumptions C63_gradient.
(* if the energy along a rotation is a polynomial of degree four up to M |t|^5, the element is
   the analytic gradient up to M * 20/3 * 10^-12 *)
Theorem C63_gradient_accuracy : forall expm no ni na nv T V D LDD1 D2 LDD2, no = ni + na + nv -> 0 < no -> 0 < LDD1 ->
  fits2 T no no no -> fits4 V no no -> fits2 D LDD1 na na -> fits4 D2 LDD2 na ->
  symmetric2 no (at2 T no) -> eightfold no (at4 V no) -> symmetric2 na (at2 D LDD1) -> fourfold na (at4 D2 LDD2) ->
  forall (X : nat -> nat -> Qc -> list Qc) OG LDOG, fits2 OG no no no ->
  (forall a i t, i < a < no -> expm no (packed no (fun p q => - t * pair_rotation a i p q)%Qc) = Ok (X a i t) /\ no * no <= length (X a i t)) ->
  (forall a i, rotates ni na nv a i -> rotation_family no (fun t => at2 (X a i t) no) (pair_rotation a i)) ->
  exists OG' F g, numerical_orbital_gradient expm no ni na T no V no D LDD1 D2 LDD2 OG LDOG = Ok OG' /\
    generalized_fock_matrix_comp_mat2 no ni na T no V no D LDD1 D2 LDD2 (repeat 0%Qc (no * no)) no = Ok F /\
    pack_gradient ni na nv F no (repeat 0%Qc (rot_size ni na nv)) = Ok g /\
    forall a i c0 c1 c2 c3 c4 M, rotates ni na nv a i ->
      quartic (fun t => energy_in no ni na (at2 T no) (at4 V no) (at2 D LDD1) (at4 D2 LDD2) (at2 (X a i t) no)) c0 c1 c2 c3 c4 M ->
      (Qcabs (at2 OG' no a i - nth (rot_index ni na nv a i) g 0) <= Q2Qc (Qmake 1 150000000000) * M)%Qc.
Proof. exact gradient_accuracy. Qed.
Print Assumptions C63_gradient_accuracy.
Example C63_gradient_run : numerical_orbital_gradient expm2 2 1 0 exT2 2 (z4 16) 2 [] 1 [] 1 (z4 4) 2 = Ok [0; - inject 8; 0; 0]%Qc.
Proof. exact ex_grad_run. Qed.
Example C63_quartic_example : quartic (fun t => energy_in 2 1 0 (at2 exT2 2) (at4 (z4 16) 2) (at2 [] 1) (at4 [] 1) (at2 (X1 2 1 0 t) 2))
  (inject 2) (- inject 8)%Qc (inject 8) (inject 4) half 0%Qc.
Proof. exact ex_quartic. Qed.

(* the elements (a, i, b, j) with i < a and i < b are mixed differences along exp(-(x K_ai + y K_bj)) *)
Theorem C63_hessian : forall expm no ni na T LDT V D LDD1 D2 LDD2, 0 < no -> 0 < LDD1 -> ni + na <= no ->
  fits2 T LDT no no -> fits4 V no no -> fits2 D LDD1 na na -> fits4 D2 LDD2 na -> pair_symmetric no (at4 V no) -> symmetric2 na (at2 D LDD1) ->
  forall (X : nat -> nat -> nat -> nat -> Qc -> Qc -> list Qc) OH LDOH, fits4 OH LDOH no ->
  (forall a i b j x y, i < a < no -> i < b < no -> j < no ->
     expm no (packed no (fun p q => - (x * pair_rotation a i p q + y * pair_rotation b j p q))%Qc) = Ok (X a i b j x y) /\ no * no <= length (X a i b j x y)) ->
  exists OH', numerical_orbital_hessian expm no ni na T LDT V no D LDD1 D2 LDD2 OH LDOH = Ok OH' /\ length OH' = length OH /\
    (forall a i b j, i < a < no -> i < b < no -> j < no -> at4 OH' LDOH a i b j =
       mixed_five_point (Q2Qc (Qmake 1 1000)) (fun x y => energy_in no ni na (at2 T LDT) (at4 V no) (at2 D LDD1) (at4 D2 LDD2) (at2 (X a i b j x y) no))) /\
    forall p, (forall a i b j, i < a < no -> i < b < no -> j < no -> p <> a + i * LDOH + b * LDOH * LDOH + j * LDOH * LDOH * LDOH) -> nth p OH' 0%Qc = nth p OH 0%Qc.
Proof. exact num_hessian_ok. Qed.
Print Assumptions C63_hessian.
(* between rotations of orbitals of different kinds with i < b: half the sum of the analytic
   Hessian's two elements, up to M * 32 * 10^-12 *)
Theorem C63_hessian_accuracy_partial : forall expm no ni na nv T V D LDD1 D2 LDD2, no = ni + na + nv -> 0 < no -> 0 < LDD1 ->
  fits2 T no no no -> fits4 V no no -> fits2 D LDD1 na na -> fits4 D2 LDD2 na ->
  symmetric2 no (at2 T no) -> eightfold no (at4 V no) -> symmetric2 na (at2 D LDD1) -> fourfold na (at4 D2 LDD2) ->
  forall (X : nat -> nat -> nat -> nat -> Qc -> Qc -> list Qc) OH LDOH, fits4 OH LDOH no ->
  (forall a i b j x y, i < a < no -> i < b < no -> j < no ->
     expm no (packed no (fun p q => - (x * pair_rotation a i p q + y * pair_rotation b j p q))%Qc) = Ok (X a i b j x y) /\ no * no <= length (X a i b j x y)) ->
  (forall a i b j x y, rotates ni na nv a i -> rotates ni na nv b j -> i < b ->
     rotation_family no (fun t => at2 (X a i b j (t * x) (t * y))%Qc no) (fun p q => x * pair_rotation a i p q + y * pair_rotation b j p q)%Qc) ->
  exists OH' F g, numerical_orbital_hessian expm no ni na T no V no D LDD1 D2 LDD2 OH LDOH = Ok OH' /\
    generalized_fock_matrix_comp_mat2 no ni na T no V no D LDD1 D2 LDD2 (repeat 0%Qc (no * no)) no = Ok F /\
    pack_gradient ni na nv F no (repeat 0%Qc (rot_size ni na nv)) = Ok g /\
    forall a i b j c M, rotates ni na nv a i -> rotates ni na nv b j -> i < b ->
      quintic2 (fun x y => energy_in no ni na (at2 T no) (at4 V no) (at2 D LDD1) (at4 D2 LDD2) (at2 (X a i b j x y) no)) c M ->
      let N := rot_size ni na nv in let ai := rot_index ni na nv a i in let bj := rot_index ni na nv b j in
      exists hai hbj, orb_orb_hessian_contract no ni na nv T no V no D LDD1 D2 LDD2 g (unit_vector N ai) (repeat 0%Qc N) = Ok hai /\
        orb_orb_hessian_contract no ni na nv T no V no D LDD1 D2 LDD2 g (unit_vector N bj) (repeat 0%Qc N) = Ok hbj /\
        (Qcabs (at4 OH' LDOH a i b j - half * (nth bj hai 0 + nth ai hbj 0)) <= Q2Qc (Qmake 1 31250000000) * M)%Qc.
Proof. exact hessian_accuracy. Qed.
Print Assumptions C63_hessian_accuracy_partial.
Example C63_hessian_run : exists OH', numerical_orbital_hessian expm2 2 1 0 exT2 2 (z4 16) 2 [] 1 [] 1 (z4 16) 2 = Ok OH' /\ at4 OH' 2 1 0 1 0 = inject 16.
Proof. exact ex_hess_run. Qed.
Example C63_quintic_example : quintic2 (fun x y => energy_in 2 1 0 (at2 exT2 2) (at4 (z4 16) 2) (at2 [] 1) (at4 [] 1) (at2 (X2 2 1 0 1 0 x y) 2)) ex_c 0%Qc.
Proof. exact ex_quintic. Qed.
(* exponentials that meet all four hypotheses, for every number of orbitals *)
Theorem C63_exponentials_exist : exists expm (X : nat -> nat -> nat -> Qc -> list Qc) (X' : nat -> nat -> nat -> nat -> nat -> Qc -> Qc -> list Qc), forall no,
  (forall a i t, expm no (packed no (fun p q => - t * pair_rotation a i p q)%Qc) = Ok (X no a i t) /\ no * no <= length (X no a i t)) /\
  (forall a i, rotation_family no (fun t => at2 (X no a i t) no) (pair_rotation a i)) /\
  (forall a i b j x y, expm no (packed no (fun p q => - (x * pair_rotation a i p q + y * pair_rotation b j p q))%Qc) = Ok (X' no a i b j x y) /\ no * no <= length (X' no a i b j x y)) /\
  forall a i b j x y, rotation_family no (fun t => at2 (X' no a i b j (t * x) (t * y))%Qc no) (fun p q => x * pair_rotation a i p q + y * pair_rotation b j p q)%Qc.
Proof. exact exponentials_exist. Qed.
Print Assumptions C63_exponentials_exist.

(* LDOG is ignored: the element a caller finds with it need not be the derivative *)
Theorem C63_gradient_leading_dimension_refuted : exists expm no ni na T V D LDD1 D2 LDD2 OG LDOG OG' (X : nat -> nat -> Qc -> list Qc) a i,
  fits2 T no no no /\ fits4 V no no /\ fits2 D LDD1 na na /\ fits4 D2 LDD2 na /\ symmetric2 no (at2 T no) /\ eightfold no (at4 V no) /\ symmetric2 na (at2 D LDD1) /\ fourfold na (at4 D2 LDD2) /\
  fits2 OG LDOG no no /\
  (forall a i t, i < a < no -> expm no (packed no (fun p q => - t * pair_rotation a i p q)%Qc) = Ok (X a i t) /\ no * no <= length (X a i t)) /\
  numerical_orbital_gradient expm no ni na T no V no D LDD1 D2 LDD2 OG LDOG = Ok OG' /\ i < a < no /\
  at2 OG' LDOG a i <> five_point (Q2Qc (Qmake 1 1000)) (fun t => energy_in no ni na (at2 T no) (at4 V no) (at2 D LDD1) (at4 D2 LDD2) (at2 (X a i t) no)).
Proof. exact grad_ld_ref. Qed.
Print Assumptions C63_gradient_leading_dimension_refuted.
(* the loop over b starts at i + 1: elements between two rotations with b <= i are never computed *)
Theorem C63_hessian_all_pairs_refuted : exists expm no ni na nv T V D LDD1 D2 LDD2 OH LDOH OH' (X : nat -> nat -> nat -> nat -> Qc -> Qc -> list Qc) a i b j, no = ni + na + nv /\
  fits2 T no no no /\ fits4 V no no /\ fits2 D LDD1 na na /\ fits4 D2 LDD2 na /\ symmetric2 no (at2 T no) /\ eightfold no (at4 V no) /\ symmetric2 na (at2 D LDD1) /\ fourfold na (at4 D2 LDD2) /\
  fits4 OH LDOH no /\
  (forall a i b j x y, expm no (packed no (fun p q => - (x * pair_rotation a i p q + y * pair_rotation b j p q))%Qc) = Ok (X a i b j x y) /\ no * no <= length (X a i b j x y)) /\
  numerical_orbital_hessian expm no ni na T no V no D LDD1 D2 LDD2 OH LDOH = Ok OH' /\ rotates ni na nv a i /\ rotates ni na nv b j /\
  at4 OH' LDOH a i b j <> mixed_five_point (Q2Qc (Qmake 1 1000)) (fun x y => energy_in no ni na (at2 T no) (at4 V no) (at2 D LDD1) (at4 D2 LDD2) (at2 (X a i b j x y) no)).
Proof. exact hess_missing_ref. Qed.
Print Assumptions C63_hessian_all_pairs_refuted.
(* and it passes b = j: an element for the "rotation" of an orbital with itself, not zero *)
Theorem C63_hessian_self_rotation_refuted : exists OH' a b, numerical_orbital_hessian expm2 2 1 0 exT2 2 (z4 16) 2 [] 1 [] 1 (z4 16) 2 = Ok OH' /\
  a < 2 /\ b < 2 /\ at4 OH' 2 a 0 b b <> 0%Qc.
Proof. exact hess_self_ref. Qed.
Print Assumptions C63_hessian_self_rotation_refuted.
