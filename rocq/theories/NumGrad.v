(** Model of numerical_orbital_gradient and numerical_orbital_hessian,
    src/macis/orbital_gradient.cxx:120-312. Doubles are exact rationals; [expm]: Eigen's matrix
    exponential. No proofs in this file. *)
From Coq Require Import QArith Qcanon.
From Verif Require Import Base Sums Ham Asci Mem Dense Mcscf.
Local Open Scope nat_scope.

(* src/macis/orbital_gradient.cxx:139, :181 *)
Definition dk : Qc := Q2Qc (1 # 1000).
(* the work arrays U, T_trans, V_trans and F (orbital_gradient.cxx:130-131, :172-173), used again for every energy *)
Definition work := (list Qc * list Qc * list Qc * list Qc)%type.

Section NUM.
  Variable expm : nat -> list Qc -> res (list Qc).
  Section ENERGY.
    Variables (norb ninact nact : nat) (T : list Qc) (LDT : nat) (V : list Qc) (LDV : nat)
      (A1RDM : list Qc) (LDD1 : nat) (A2RDM : list Qc) (LDD2 : nat).

    (* compute_orbital_rotation(norb, alpha, K, norb, U, norb) and energy() (orbital_gradient.cxx:133-137, :175-179, :196-197) *)
    Definition rotate_energy (alpha : Qc) (K : list Qc) (w : work) : res (Qc * work) :=
      let '(U, T_trans, V_trans, F) := w in
      do U <- compute_orbital_rotation expm norb alpha K norb U norb;
      do x <- orbital_rotated_generalized_fock norb ninact nact T LDT V LDV A1RDM LDD1 A2RDM LDD2 U norb
                T_trans norb V_trans norb F norb;
      let '(T_trans, V_trans, F) := x in
      do e <- energy_from_generalized_fock ninact nact T_trans norb A1RDM LDD1 F norb;
      Ok (e, (U, T_trans, V_trans, F)).
    Definition new_work : work :=
      (repeat 0%Qc (norb * norb), repeat 0%Qc (norb * norb), repeat 0%Qc (norb * norb * (norb * norb)), repeat 0%Qc (norb * norb)).
    (* orbital_gradient.cxx:142-144 (also :186-191): the array with dk at a + i * norb and then -dk at i + a * norb *)
    Definition rotation_array (a i : nat) : res (list Qc) :=
      do K <- put (repeat 0%Qc (norb * norb)) (a + i * norb) dk;
      put K (i + a * norb) (- dk)%Qc.

    (* orbital_gradient.cxx:120-161; LDOG is not used *)
    Definition numerical_orbital_gradient (OG : list Qc) (LDOG : nat) : res (list Qc) :=
      do r <- foldM (flat_map (fun i => map (pair i) (seq (i + 1) (norb - (i + 1)))) (seq 0 norb))
        (fun (s : list Qc * work) ia =>
          let '(OG, w) := s in
          let '(i, a) := ia in
          do K <- rotation_array a i;
          do e <- rotate_energy (inject 2) K w;
          let '(E_p2, w) := e in
          do e <- rotate_energy 1%Qc K w;
          let '(E_p1, w) := e in
          do e <- rotate_energy (- (1))%Qc K w;
          let '(E_m1, w) := e in
          do e <- rotate_energy (- inject 2)%Qc K w;
          let '(E_m2, w) := e in
          do g <- fdiv (E_m2 - E_p2 + inject 8 * (E_p1 - E_m1)) (inject 12 * dk);
          do OG <- put OG (a + i * norb) g;
          Ok (OG, w)) (OG, new_work);
      Ok (fst r).

    (* orbital_gradient.cxx:193-287: the multiples of Kx and Ky, in the order of evaluation *)
    Definition steps : list (Qc * Qc) :=
      let p1 := 1%Qc in let p2 := inject 2 in let m1 := (- (1))%Qc in let m2 := (- inject 2)%Qc in
      [(p1, p1); (p2, p1); (p1, p2); (p2, p2); (p1, m1); (p2, m1); (p1, m2); (p2, m2);
       (m1, p1); (m2, p1); (m1, p2); (m2, p2); (m1, m1); (m2, m1); (m1, m2); (m2, m2)].
    (* orbital_gradient.cxx:293-302: c, and the positions in [steps] of e_p2, e_p1, e_m1, e_m2 *)
    Definition stencil_c : list Qc := [(- (1))%Qc; inject 8; (- inject 8)%Qc; 1%Qc].
    Definition stencil_e : list (list nat) := [[3; 1; 5; 7]; [2; 0; 4; 6]; [10; 8; 12; 14]; [11; 9; 13; 15]].
    (* orbital_gradient.cxx:182-185: the loop over b starts at i + 1 *)
    Definition hessian_loop : list (nat * nat * (nat * nat)) :=
      flat_map (fun i => flat_map (fun a => flat_map (fun j => map (fun b => ((i, a), (j, b))) (seq (i + 1) (norb - (i + 1))))
        (seq 0 norb)) (seq (i + 1) (norb - (i + 1)))) (seq 0 norb).
    (* orbital_gradient.cxx:163-312 *)
    Definition numerical_orbital_hessian (OH : list Qc) (LDOH : nat) : res (list Qc) :=
      do r <- foldM hessian_loop
        (fun (s : list Qc * work) x =>
          let '(OH, w) := s in
          let '((i, a), (j, b)) := x in
          do Kx <- rotation_array a i;
          do Ky <- rotation_array b j;
          do ew <- foldM steps (fun (s : list Qc * work) xy =>
              let '(es, w) := s in
              let K := map (fun k => fst xy * fst k + snd xy * snd k)%Qc (combine Kx Ky) in
              do e <- rotate_energy 1%Qc K w;
              let '(e, w) := e in
              Ok (es ++ [e], w)) ([], w);
          let '(es, w) := ew in
          do tmp <- sumM 0%Qc (loop2 4 4) (fun pq =>
              do cp <- at_ stencil_c (fst pq);
              do cq <- at_ stencil_c (snd pq);
              do row <- at_ stencil_e (fst pq);
              do pos <- at_ row (snd pq);
              do e <- at_ es pos;
              Ok (cp * cq * e)%Qc);
          do g <- fdiv tmp (inject 144 * dk * dk);
          do OH <- put OH (a + i * LDOH + b * LDOH * LDOH + j * LDOH * LDOH * LDOH) g;
          Ok (OH, w)) (OH, new_work);
      Ok (fst r).
  End ENERGY.
End NUM.
