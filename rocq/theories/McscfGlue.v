(** The orbital optimisation: the statements of Props_Mcscf.v. *)
From Coq Require Import QArith Qcanon Qcabs.
From Verif Require Import Base SD Spec SDProofs3 SparseSpec CsrView FockSpec SlaterCondon Ham Sums Nondet Asci AsciSort Mem Dense DenseSpec DenseProofs Davidson DavSpec DavProofs2 DavProofs5
  Diis DiisSpec Mcscf McscfSpec McscfProofs McscfProofs2 McscfProofs4 McscfProofs5 RdmSymProofs CasciSpec McscfProofs6.
Local Open Scope nat_scope.

Lemma passed_trace nalpha nbeta na A1 : passed nalpha nbeta na A1 = true <-> right_trace na nalpha nbeta (at2 A1 na).
Proof.
  unfold passed, right_trace. rewrite <- qabs_std. destruct (qlt _ _) eqn:E; cbn [negb].
  - apply qlt_true in E. split; [discriminate|]. intros H. exfalso. exact (Qclt_not_le _ _ E H).
  - apply qlt_false in E. split; auto.
Qed.
Section RUN.
  Variables (root : Qc -> Qc) (gelss : nat -> list Qc -> list Qc -> res (list Qc)) (expm : nat -> list Qc -> res (list Qc)) (rdms : rdm_functor) (st : settings)
    (nalpha nbeta no ni na nv : nat) (E_core : Qc) (T : list Qc) (LDT : nat) (V A1 A2 : list Qc).
  Variables (F : err -> Prop) (PX : list Qc -> Prop) (Post : list Qc -> list Qc -> Qc -> list Qc -> list Qc -> Prop).
  Lemma any_solver : orbital_problem no ni na nv T LDT V -> density_room na A1 A2 -> rotations_or_tolerance root (orb_grad_tol st) ni na nv ->
    least_squares gelss -> exponential expm -> (enable_diis st = true -> 0 < diis_nkeep st) ->
    F NonFinite -> (forall k B b e, gelss k B b = Err e -> F e) -> (forall n M e, expm n M = Err e -> F e) -> PX [] ->
    (forall TA VA Z1 Z2 X, length TA = na * na -> length VA = na * na * (na * na) -> symmetric2 na (at2 TA na) -> eightfold na (at4 VA na) ->
      zeros (na * na) Z1 -> zeros (na * na * (na * na)) Z2 -> length Z1 = length A1 -> length Z2 = length A2 -> PX X ->
      forall r, rdms na nalpha nbeta TA VA Z1 Z2 X r ->
        match r with Ok (e, B1, B2, Y) => length B1 = length A1 /\ length B2 = length A2 /\ PX Y /\ Post TA VA e B1 B2 | Err x => F x end) ->
    forall r, mcscf_impl root gelss expm rdms st nalpha nbeta no ni na nv E_core T LDT V no na na A1 A2 r ->
    match r with
    | Ok (E, B1, B2, (it, conv)) => length B1 = length A1 /\ length B2 = length A2 /\
        exists tr, starts ni na nv E_core (at2 T LDT) (at4 V no) (tr 0) /\
          starting_densities ni na nalpha nbeta (at2 T LDT) (at4 V no) Post A1 A2 (tr 0) /\
          (forall i, i < it -> orbital_pass expm (max_orbital_step st) (enable_diis st) (diis_start_iter st) (diis_nkeep st) ni na nv tr i) /\
          all_solved ni na nv E_core (at2 T LDT) (at4 V no) Post tr it /\
          stops_at root (orb_grad_tol st) ni na nv (max_macro_iter st) tr it conv /\
          handed_back na (tr it) E B1 B2
    | Err x => F x
    end.
  Proof.
    intros (Hno & Hna & HT & HV & ST & SV) (L1 & L2) HR HL HE HK HF1 HF2 HF3 HP HS r H.
    pose proof (run_out root gelss expm rdms st nalpha nbeta no ni na nv E_core T LDT V (length A1) (length A2) Hno Hna HT HV ST SV L1 L2 HL HE HK F PX Post HF1 HF2 HF3 HP) as RO.
    assert (HS' : forall TA VA Z1 Z2 X, length TA = na * na -> length VA = na * na * (na * na) -> symmetric2 na (at2 TA na) -> eightfold na (at4 VA na) ->
      zeros (na * na) Z1 -> zeros (na * na * (na * na)) Z2 -> length Z1 = length A1 -> length Z2 = length A2 -> PX X ->
      outcome (fun r => let '(e, B1, B2, X') := r in length B1 = length A1 /\ length B2 = length A2 /\ PX X' /\ Post TA VA e B1 B2) F (rdms na nalpha nbeta TA VA Z1 Z2 X)).
    { intros TA VA Z1 Z2 X a b c d e f g h i r' Hr'. specialize (HS TA VA Z1 Z2 X a b c d e f g h i r' Hr'). destruct r' as [[[[? ?] ?] ?]|]; exact HS. }
    specialize (RO HS' A1 A2 eq_refl eq_refl HR r H). destruct r as [[[[E B1] B2] [it conv]]|x]; [|exact RO].
    cbn [outc] in RO. unfold result in RO. destruct RO as (LB1 & LB2 & Hit & Hc & tr & S0 & D0 & St & Ro & So & Nc & Cv & Rz & D & D2 & EE).
    split; [exact LB1|]. split; [exact LB2|]. exists tr. split; [exact S0|]. split.
    { unfold starting_densities. pose proof (passed_trace nalpha nbeta na A1) as P. destruct (passed nalpha nbeta na A1); [left|right].
      - split; [apply P; reflexivity|exact D0].
      - split; [intros Q; apply P in Q; discriminate|exact D0]. }
    split; [exact St|]. split; [split; [rewrite <- Hno; exact Ro|exact So]|]. split; [|split; auto].
    split; [exact Hit|]. split; [exact Nc|]. split; [|exact Rz]. destruct conv; [apply Cv; reflexivity|]. split; [apply Hc; reflexivity|]. intros Q. apply Cv in Q. discriminate.
  Qed.
End RUN.
Section CASSCF.
  Variables (root : Qc -> Qc) (syev : nat -> list Qc -> res (list Qc * list Qc)) (gelss : nat -> list Qc -> list Qc -> res (list Qc)) (expm : nat -> list Qc -> res (list Qc)) (st : settings)
    (nalpha nbeta no ni na nv : nat) (E_core : Qc) (T : list Qc) (LDT : nat) (V A1 A2 : list Qc).
  Hypothesis HP : orbital_problem no ni na nv T LDT V.
  Hypothesis HD : density_room na A1 A2.
  Hypothesis HR : rotations_or_tolerance root (orb_grad_tol st) ni na nv.
  Hypothesis HL : least_squares gelss.
  Hypothesis HE : exponential expm.
  Hypothesis HK : enable_diis st = true -> 0 < diis_nkeep st.
  Hypothesis Hn : na <= 32.
  Hypothesis Ha : nalpha <= na.
  Hypothesis Hb : nbeta <= na.
  Hypothesis Ht : (0 <= ci_matel_tol st)%Qc.
  Definition answer (Post : list Qc -> list Qc -> Qc -> list Qc -> list Qc -> Prop) (r : Qc * list Qc * list Qc * (nat * bool)) : Prop :=
    let '(E, B1, B2, (it, conv)) := r in length B1 = length A1 /\ length B2 = length A2 /\
        exists tr, starts ni na nv E_core (at2 T LDT) (at4 V no) (tr 0) /\
          starting_densities ni na nalpha nbeta (at2 T LDT) (at4 V no) Post A1 A2 (tr 0) /\
          (forall i, i < it -> orbital_pass expm (max_orbital_step st) (enable_diis st) (diis_start_iter st) (diis_nkeep st) ni na nv tr i) /\
          all_solved ni na nv E_core (at2 T LDT) (at4 V no) Post tr it /\
          stops_at root (orb_grad_tol st) ni na nv (max_macro_iter st) tr it conv /\
          handed_back na (tr it) E B1 B2.
  Lemma space_list : exists dets, whole_space 64 na nalpha nbeta dets /\ exists f0, forall fuel, f0 <= fuel -> generate_hilbert_space fuel 64 na nalpha nbeta = Ok dets.
  Proof. destruct (hilbert_spec 64 na nalpha nbeta eq_refl Hn Ha Hb) as (l & f & ND & _ & I). exists l. split; [split; auto|exact f]. Qed.
  Lemma casscf_answer : exists f0, forall fuel, f0 <= fuel ->
    if_returns (casscf_diis root syev gelss expm fuel st nalpha nbeta no ni na nv E_core T LDT V no na na A1 A2)
      (answer (ci_solution root 64 nalpha nbeta na (ci_matel_tol st) (ci_res_tol st))).
  Proof.
    destruct space_list as (dets & WS & f0 & Hf). exists f0. intros fuel Hfu r H. specialize (Hf fuel Hfu).
    pose proof (any_solver root gelss expm (compute_casci_rdms root syev fuel 64 st) st nalpha nbeta no ni na nv E_core T LDT V A1 A2 (fun _ => True) (fun _ => True)
      (ci_solution root 64 nalpha nbeta na (ci_matel_tol st) (ci_res_tol st)) HP HD HR HL HE HK I (fun _ _ _ _ _ => I) (fun _ _ _ _ => I) I) as R.
    assert (RD : forall r, mcscf_impl root gelss expm (compute_casci_rdms root syev fuel 64 st) st nalpha nbeta no ni na nv E_core T LDT V no na na A1 A2 r ->
      match r with Ok r => answer (ci_solution root 64 nalpha nbeta na (ci_matel_tol st) (ci_res_tol st)) r | Err _ => True end).
    { intros r' Hr'. refine (_ (R _ r' Hr')); clear R; [destruct r' as [[[[E B1] B2] [it conv]]|x]; auto|].
      intros TA VA Z1 Z2 X LT LV ST SV Z1z Z2z LZ1 LZ2 _ rr Hrr. destruct rr as [[[[e B1] B2] Y]|]; [|exact I].
      destruct (ci_solves root syev 64 (or_introl eq_refl) st na nalpha nbeta Hn Ht dets fuel WS Hf TA VA Z1 Z2 X e B1 B2 Y) as (Q1 & Q2 & Q3); auto; try lia.
      rewrite Q1, Q2. auto. }
    exact (RD (Ok r) H).
  Qed.
  Lemma casscf_ground : exact_root root -> eigensolver syev -> exists f0, forall fuel, f0 <= fuel ->
    if_returns (casscf_diis root syev gelss expm fuel st nalpha nbeta no ni na nv E_core T LDT V no na na A1 A2)
      (answer (ci_ground root 64 nalpha nbeta na (ci_matel_tol st) (ci_res_tol st))).
  Proof.
    intros XR XE. destruct space_list as (dets & WS & f0 & Hf). exists f0. intros fuel Hfu r H. specialize (Hf fuel Hfu).
    pose proof (any_solver root gelss expm (compute_casci_rdms root syev fuel 64 st) st nalpha nbeta no ni na nv E_core T LDT V A1 A2 (fun _ => True) (guess (length dets))
      (ci_ground root 64 nalpha nbeta na (ci_matel_tol st) (ci_res_tol st)) HP HD HR HL HE HK I (fun _ _ _ _ _ => I) (fun _ _ _ _ => I) (or_introl eq_refl)) as R.
    assert (RD : forall r, mcscf_impl root gelss expm (compute_casci_rdms root syev fuel 64 st) st nalpha nbeta no ni na nv E_core T LDT V no na na A1 A2 r ->
      match r with Ok r => answer (ci_ground root 64 nalpha nbeta na (ci_matel_tol st) (ci_res_tol st)) r | Err _ => True end).
    { intros r' Hr'. refine (_ (R _ r' Hr')); clear R; [destruct r' as [[[[E B1] B2] [it conv]]|x]; auto|].
      intros TA VA Z1 Z2 X LT LV ST SV Z1z Z2z LZ1 LZ2 PX rr Hrr. destruct rr as [[[[e B1] B2] Y]|]; [|exact I].
      destruct (ci_solves_exact root syev 64 (or_introl eq_refl) st na nalpha nbeta Hn Ht dets fuel WS Hf TA VA Z1 Z2 X e B1 B2 Y) as (Q1 & Q2 & Q3 & Q4); auto; try lia.
      rewrite Q1, Q2. auto. }
    exact (RD (Ok r) H).
  Qed.
End CASSCF.
