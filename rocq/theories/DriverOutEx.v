(** C66: an MCSCF job that starts from a density file, and what its energy can be. *)
From Coq Require Import Ascii String QArith Qcanon ZArith NArith Bool Lqa.
From Verif Require AsciSort DiisProofs2 SDProofs3.
From Verif Require Import Base Bits CsrView SparseSpec SD Spec Sums FockSpec Ham PropsHamGlue Nondet Mem Text TextProofs IO IOSpec IOGlue Dense DenseSpec DiisSpec Diis Davidson DavSpec DavProofs2 DavProofs5 DavProofs8 DavProofs14 DavEx Mcscf McscfSpec McscfEx CasciSpec Asci AsciSpec AsciRot AsciRotSpec
  FreezeSpec Ini IniSpec IniGlue Driver DriverSpec DriverProofs DriverProofs2 DriverProofs3 DriverProofs4 DriverGlue DriverEx.
Local Open Scope nat_scope.
Local Open Scope string_scope.
Local Open Scope list_scope.

(** ** files *)
Definition rd_in : text := ini_file (["[CI]"; "RDMFILE = d.bin"] ++ dr_common ++ dr_solver ++ ["MCSCF_ORB_TOL = 1000000.0"]).
Definition rd_is : list item := [Heading (lit "CI"); Entry 0 (lit "RDMFILE") (lit "d.bin")] ++ dr_common_is ++ [Entry 0 (lit "MCSCF_ORB_TOL") (lit "1000000.0")].
Lemma rd_says : Forall2 line_says (lines rd_in) rd_is.
Proof.
  change (lines rd_in) with (map lit (["[CI]"; "RDMFILE = d.bin"] ++ dr_common ++ dr_solver ++ ["MCSCF_ORB_TOL = 1000000.0"])).
  cbn [map app dr_common dr_solver]. unfold rd_is, dr_common_is. cbn [app]. sayings.
Qed.
Definition rd_orb : mcscf_options := mk_mcscf_options 100 (Q2Qc (1 # 2)) (Q2Qc (1000000 # 1)) true 3 10 1%Qc 2 0%Qc.
Definition rd_o : driver_options := mk_driver_options JobMCSCF ExpCAS 1 2 0 (lit "d.bin") [] rd_orb (dr_search 100000 6 []) false (mk_print_options false (Q2Qc (1 # 100))).
Lemma rd_asked : asked exact (dr_fs rd_in) (lit "in.ini") 1 dr_es rd_o.
Proof. apply (dr_asked rd_in rd_is); [exact rd_says|vm_compute; tauto|vm_compute; reflexivity..|]. config; cbn; lia. Qed.

(** ** densities: one electron in each active orbital; no pairs, or pairs that no wave function has *)
Definition rd_D1 : list Qc := map (fun i => match i with 4 | 8 => 1%Qc | _ => 0%Qc end) (seq 0 9).
Definition rd_D2 (v : Qc) : list Qc := map (fun i => match i with 80 => v | _ => 0%Qc end) (seq 0 81).
Definition rd_enc (v : Qc) : list N := if sameq v 1%Qc then [0; 0; 0; 0; 0; 0; 240; 63]%N else if sameq v (z (-1000)) then [0; 0; 0; 0; 0; 64; 143; 192]%N else repeat 0%N 8.
Definition rd_dec (b : list N) : Qc := if list_eq_dec N.eq_dec b [0; 0; 0; 0; 0; 0; 240; 63]%N then 1%Qc else if list_eq_dec N.eq_dec b [0; 0; 0; 0; 0; 64; 143; 192]%N then z (-1000) else 0%Qc.
Definition rd_bytes (v : Qc) : list N := match write_rdms_binary rd_enc 3 rd_D1 3 (rd_D2 v) 3 with Ok b => b | Err _ => [] end.
Definition rd_fsb (v : Qc) (n : text) : option (list N) := if text_eq_dec n (lit "d.bin") then Some (rd_bytes v) else None.
Lemma rd_written v : v = 0%Qc \/ v = z (-1000) -> write_rdms_binary rd_enc 3 rd_D1 3 (rd_D2 v) 3 = Ok (rd_bytes v).
Proof. intros [-> | ->]; vm_compute; reflexivity. Qed.
Lemma rd_values v x : v = 0%Qc \/ v = z (-1000) -> In x rd_D1 \/ In x (rd_D2 v) -> List.length (rd_enc x) = 8 /\ rd_dec (rd_enc x) = x.
Proof.
  intros Hv Hx. assert (G : x = 0%Qc \/ x = 1%Qc \/ x = z (-1000)).
  { destruct Hx as [Hx|Hx]; apply in_map_iff in Hx; destruct Hx as (i & <- & Hi); apply in_seq in Hi.
    - do 9 (destruct i as [|i]; [auto|]). lia.
    - do 80 (destruct i as [|i]; [auto|]). destruct i as [|i]; [|lia]. destruct Hv as [-> | ->]; auto. }
  destruct G as [-> | [-> | ->]]; vm_compute; auto.
Qed.
Lemma rd_room v : (forall i j, i < 3 -> j < 3 -> i + j * 3 < List.length rd_D1) /\
  (forall i j k l, i < 3 -> j < 3 -> k < 3 -> l < 3 -> i + j * 3 + k * 3 * 3 + l * 3 * 3 * 3 < List.length (rd_D2 v)).
Proof. unfold rd_D1, rd_D2. rewrite !map_length, !seq_length. split; intros; lia. Qed.

(** ** the run *)
Definition rd_A1 : list Qc := [1%Qc; 0%Qc; 0%Qc; 1%Qc].
Definition rd_A2 (v : Qc) : list Qc := map (fun i => match i with 15 => v | _ => 0%Qc end) (seq 0 16).
Lemma rd_read v : v = 0%Qc \/ v = z (-1000) ->
  (do x <- read_rdms_binary rd_dec (Some (rd_bytes v)) 3 (repeat 0%Qc (3 * 3)) 3 (repeat 0%Qc (3 * 3 * (3 * 3))) 3;
   do A1 <- active_submatrix_1body 2 1 (fst x) 3 (repeat 0%Qc (2 * 2)) 2;
   do A2 <- active_subtensor_2body 2 1 (snd x) 3 (repeat 0%Qc (2 * 2 * (2 * 2))) 2; Ok (A1, A2)) = Ok (rd_A1, rd_A2 v).
Proof. intros [-> | ->]; vm_compute; reflexivity. Qed.
Definition rd_run (v : Qc) : nd outcome :=
  driver ex_root dr_syev no_syev_ld no_gelss ex_expm exact ex_show rd_dec 5 true (dr_fs rd_in) (rd_fsb v) (Some (lit "in.ini")).
Lemma rd_runs v : v = 0%Qc \/ v = z (-1000) -> exists out, rd_run v (Ok out) /\ out_E out = (Q2Qc (-9 # 2) + q7 * v)%Qc.
Proof.
  intros Hv. 
  set (m := do E1 <- dot_ 4 rd_A1 dTA; do E2 <- dot_ 16 (rd_A2 v) dVA;
            do G <- gradient 3 1 2 0 2 2 dV 3 rd_A1 (rd_A2 v) dF (repeat 0%Qc 9) (repeat 0%Qc 6) (repeat 0%Qc 9) (repeat 0%Qc (0 * 3 + 2 * 1));
            do g <- nrm2 ex_root (snd G); Ok (E1, E2, G, g)).
  destruct (okb_ok m (fun x => let '(E1, E2, G, g) := x in sameq (E1 + E2 + (z (-5) + Q2Qc (1 # 2)))%Qc (Q2Qc (-9 # 2) + q7 * v)%Qc && qlt g (Q2Qc (1000000 # 1)))) as ((((E1 & E2) & (((Fa & Qm) & F) & OG)) & g) & E & H).
  { destruct Hv as [-> | ->]; vm_compute; reflexivity. }
  unfold m in E. apply bind_ok in E. destruct E as (e1 & Q1 & E). apply bind_ok in E. destruct E as (e2 & Q2 & E). apply bind_ok in E. destruct E as (G & Q3 & E). apply bind_ok in E. destruct E as (g' & Q4 & E). injection E as -> -> -> ->. cbn [snd] in Q4.
  apply andb_prop in H. destruct H as (H1 & H2). apply sameq_ok in H1.
  exists (mk_outcome (E1 + E2 + (z (-5) + Q2Qc (1 # 2)))%Qc [] None None). split; [|exact H1].
  eapply (run_back ex_root dr_syev no_syev_ld no_gelss ex_expm exact ex_show rd_dec true (dr_fs rd_in) (rd_fsb v) (lit "in.ini") (lit "ints.dump") dr_dump (contents rd_is) (Z.of_nat 1) dr_es rd_o).
  - exists rd_in, rd_is. split; [reflexivity|]. split; [exact rd_says|]. split; [vm_compute; tauto|reflexivity].
  - apply dr_asks; vm_compute; reflexivity.
  - exists dr_dump. split; [reflexivity|exact dr_data].
  - change (max_index dr_es) with 3. config; cbn; lia.
  - reflexivity.
  - exact dr_ints.
  - reflexivity.
  - exact dr_H.
  - exact dr_Ei.
  - unfold job_part. change (d_job rd_o) with JobMCSCF. cbv iota.
    right. exists (E1 + E2 + (z (-5) + Q2Qc (1 # 2)))%Qc. split; [|reflexivity].
    unfold driver_mcscf_run. cbv zeta. change (d_rdm rd_o) with (lit "d.bin"). change (rd_fsb v (lit "d.bin")) with (Some (rd_bytes v)). change (d_nactive rd_o) with 2. change (d_ninactive rd_o) with 1. change (max_index dr_es) with 3.
    eapply det_intro; [exact (rd_read v Hv)|]. cbn [fst snd].
    right. exists (E1 + E2 + (z (-5) + Q2Qc (1 # 2)), rd_A1, rd_A2 v, (0%nat, true))%Qc. split; [|reflexivity].
    unfold casscf_diis, mcscf_impl. right. eexists. split.
    + unfold mcscf_start. eapply det_intro; [reflexivity|]. eapply det_intro; [reflexivity|]. eapply det_intro; [exact dr_H|]. cbv iota beta. eapply det_intro; [exact dr_Ei|]. cbv zeta.
      eapply det_intro; [reflexivity|]. right. exists (rd_A1, rd_A2 v, []). split.
      * match goal with |- context [qlt ?a ?b] => replace (qlt a b) with false by (vm_compute; reflexivity) end. reflexivity.
      * cbv iota beta. eapply det_intro; [exact Q1|]. eapply det_intro; [exact Q2|]. eapply det_intro; [exact Q3|]. cbv iota beta. eapply det_intro; [exact Q4|]. reflexivity.
    + change (orb_grad_tol (mcscf_settings (d_mcscf rd_o))) with (Q2Qc (1000000 # 1)). rewrite H2. right. eexists. split; [reflexivity|]. reflexivity.
  - reflexivity.
Qed.

(** ** a lower bound of any spectrum *)
Lemma pair_low (a x y d : Qc) : (x * x <= d)%Qc -> (y * y <= d)%Qc -> (- Qcabs a * d <= x * (a * y))%Qc.
Proof.
  intros Hx Hy.
  assert (P : (- d <= x * y)%Qc /\ (x * y <= d)%Qc).
  { clear a. unfold Qcle, Qcmult, Qcopp in *. cbn [this Q2Qc] in *. rewrite ?Qred_correct in *. destruct x as [x ?], y as [y ?], d as [d ?]. cbn [this] in *. split; nra. }
  unfold Qcabs. destruct (qlt a 0) eqn:E.
  - assert (L : (0 <= - a)%Qc). { apply AsciSort.qlt_true in E. apply Qclt_le_weak in E. apply Qcopp_le_compat in E. exact E. }
    destruct P as (_ & P). replace (x * (a * y))%Qc with (- (x * y * - a))%Qc by ring. replace (- - a * d)%Qc with (- (d * - a))%Qc by ring. apply Qcopp_le_compat. apply Qcmult_le_compat_r; auto.
  - assert (L : (0 <= a)%Qc). { apply AsciSort.qlt_false in E. exact E. }
    destruct P as (P & _). replace (x * (a * y))%Qc with (x * y * a)%Qc by ring. replace (- a * d)%Qc with (- d * a)%Qc by ring. apply Qcmult_le_compat_r; auto.
Qed.
Lemma dot_entry n x i : i < n -> (nth i x 0 * nth i x 0 <= dot n x x)%Qc.
Proof.
  intros Hi. unfold dot, Sigma. assert (In i (seq 0 n)) as H by (apply in_seq; lia). revert H. generalize (seq 0 n). induction l as [|j l IH]; intros []; cbn [sum].
  - subst j. rewrite <- (Qcplus_0_r (nth i x 0 * nth i x 0)%Qc) at 1. apply Qcplus_le_compat; [apply Qcle_refl|]. clear IH. induction l as [|j l IH]; [apply Qcle_refl|]. cbn [sum]. apply (Qcplus_le_compat 0 _ 0 _); [apply DiisProofs2.square_nonneg|exact IH].
  - rewrite <- (Qcplus_0_l (nth i x 0 * nth i x 0)%Qc). apply Qcplus_le_compat; [apply DiisProofs2.square_nonneg|auto].
Qed.
Lemma spectrum_floor n A : spectrum_above n A (- Sigma n (fun i => Sigma n (fun j => Qcabs (A i j))))%Qc.
Proof.
  intros x. unfold expectation, matvec. set (d := dot n x x).
  assert (G : forall l f, (forall i, In i l -> (- f i * d <= nth i x 0 * Sigma n (fun j => A i j * nth j x 0))%Qc) -> (- sum l f * d <= sum l (fun i => nth i x 0 * Sigma n (fun j => A i j * nth j x 0)))%Qc).
  { intros l f. induction l as [|i l IH]; intros H; [cbn [sum]; replace (- 0 * d)%Qc with 0%Qc by ring; apply Qcle_refl|]. cbn [sum]. replace (- (f i + sum l f) * d)%Qc with (- f i * d + - sum l f * d)%Qc by ring. apply Qcplus_le_compat; [apply H; left; reflexivity|apply IH; intros j Hj; apply H; right; exact Hj]. }
  apply G. intros i Hi. apply in_seq in Hi.
  assert (K : forall l, (forall j, In j l -> j < n) -> (- sum l (fun j => Qcabs (A i j)) * d <= nth i x 0 * sum l (fun j => A i j * nth j x 0))%Qc).
  { induction l as [|j l IH]; intros H; [cbn [sum]; replace (- 0 * d)%Qc with 0%Qc by ring; rewrite Qcmult_0_r; apply Qcle_refl|]. cbn [sum]. replace (- (Qcabs (A i j) + sum l (fun j => Qcabs (A i j))) * d)%Qc with (- Qcabs (A i j) * d + - sum l (fun j => Qcabs (A i j)) * d)%Qc by ring.
    rewrite Qcmult_plus_distr_r. apply Qcplus_le_compat; [|apply IH; intros k Hk; apply H; right; exact Hk].
    apply pair_low; apply dot_entry; [lia|apply H; left; reflexivity]. }
  apply K. intros j Hj. apply in_seq in Hj. lia.
Qed.
Definition rd_space : list N := match generate_hilbert_space 20 64 3 2 2 with Ok l => l | Err _ => [] end.
Lemma rd_whole : whole_space 64 3 2 2 rd_space.
Proof.
  destruct (SDProofs3.hilbert_spec 64 3 2 2 eq_refl) as (l & (f & Hf) & ND & _ & I); try (cbn; lia).
  specialize (Hf (20 + f) (Nat.le_add_l _ _)).
  assert (G : generate_hilbert_space (20 + f) 64 3 2 2 = Ok rd_space) by (vm_compute; reflexivity).
  pose proof (eq_trans (eq_sym Hf) G) as X. injection X as ->. split; assumption.
Qed.
Definition rd_floor : Qc := (- Sigma 9 (fun i => Sigma 9 (fun j => Qcabs (ci_matrix 64 (mk_ints 3 (file_T dr_es) (file_V dr_es)) 0%Qc rd_space i j))))%Qc.
Lemma rd_spectrum : spectrum_above (List.length rd_space) (ci_matrix 64 (mk_ints 3 (file_T dr_es) (file_V dr_es)) 0%Qc rd_space) rd_floor.
Proof. apply spectrum_floor. Qed.
Lemma rd_below : (Q2Qc (-9 # 2) + q7 * z (-1000) < first_core dr_es + rd_floor)%Qc.
Proof. vm_compute. reflexivity. Qed.

(** ** for Props_Driver.v *)
Lemma rdm_example : asked exact (dr_fs rd_in) (lit "in.ini") 1 dr_es rd_o /\ d_job rd_o = JobMCSCF /\ d_rdm rd_o <> [] /\
  rd_fsb 0 (d_rdm rd_o) = Some (rd_bytes 0) /\ write_rdms_binary rd_enc 3 rd_D1 3 (rd_D2 0) 3 = Ok (rd_bytes 0) /\
  (forall i j, i < 3 -> j < 3 -> i + j * 3 < List.length rd_D1) /\ (forall i j k l, i < 3 -> j < 3 -> k < 3 -> l < 3 -> i + j * 3 + k * 3 * 3 + l * 3 * 3 * 3 < List.length (rd_D2 0)) /\
  (forall v, In v rd_D1 \/ In v (rd_D2 0) -> List.length (rd_enc v) = 8 /\ rd_dec (rd_enc v) = v) /\
  d_mp2 rd_o = false /\ 1 <= d_nactive rd_o /\ k_ci_matel (d_mcscf rd_o) = 0%Qc /\ exact_root ex_root /\ eigensolver dr_syev /\
  least_squares no_gelss /\ exponential ex_expm /\ (0 < k_diis_nkeep (d_mcscf rd_o))%Z /\ rotations_or_tolerance ex_root (k_orb_tol (d_mcscf rd_o)) 1 2 0 /\
  exists out, driver ex_root dr_syev no_syev_ld no_gelss ex_expm exact ex_show rd_dec 5 true (dr_fs rd_in) (rd_fsb 0) (Some (lit "in.ini")) (Ok out) /\ out_E out = Q2Qc (-9 # 2).
Proof.
  split; [exact rd_asked|]. split; [reflexivity|]. split; [discriminate|]. split; [reflexivity|]. split; [apply rd_written; auto|]. split; [apply (rd_room 0%Qc)|]. split; [apply (rd_room 0%Qc)|]. split; [intros v; apply rd_values; auto|].
  split; [reflexivity|]. split; [cbn; lia|]. split; [reflexivity|]. split; [exact ex_root_exact|]. split; [exact dr_syev_solves|].
  split; [exact no_gelss_ok|]. split; [exact ex_expm_ok|]. split; [cbn; lia|]. split; [left; cbn; lia|].
  destruct (rd_runs 0%Qc ltac:(auto)) as (out & R & E). exists out. split; [exact R|]. rewrite E. apply Qc_is_canon. vm_compute. reflexivity.
Qed.
Lemma rdm_energy : exists rnd fs fsb enc dec name es o D1 D2 bytes D b out, asked rnd fs name 1 es o /\ d_job o = JobMCSCF /\ d_mp2 o = false /\
  fsb (d_rdm o) = Some bytes /\ write_rdms_binary enc 3 D1 3 D2 3 = Ok bytes /\ (forall v, In v D1 \/ In v D2 -> List.length (enc v) = 8 /\ dec (enc v) = v) /\
  driver ex_root dr_syev no_syev_ld no_gelss ex_expm rnd ex_show dec 5 true fs fsb (Some name) (Ok out) /\
  max_index es = 3 /\ d_ninactive o = 1 /\ whole_space 64 3 2 2 D /\ spectrum_above (List.length D) (ci_matrix 64 (mk_ints 3 (file_T es) (file_V es)) 0%Qc D) b /\
  (out_E out < first_core es + b)%Qc.
Proof.
  destruct (rd_runs (z (-1000)) ltac:(auto)) as (out & R & E).
  exists exact, (dr_fs rd_in), (rd_fsb (z (-1000))), rd_enc, rd_dec, (lit "in.ini"), dr_es, rd_o, rd_D1, (rd_D2 (z (-1000))), (rd_bytes (z (-1000))), rd_space, rd_floor, out.
  split; [exact rd_asked|]. split; [reflexivity|]. split; [reflexivity|]. split; [reflexivity|]. split; [apply rd_written; auto|]. split; [intros v; apply rd_values; auto|]. split; [exact R|].
  split; [reflexivity|]. split; [reflexivity|]. split; [exact rd_whole|]. split; [exact rd_spectrum|]. rewrite E. exact rd_below.
Qed.

(** ** MP2_GUESS: an ASCI job that writes its integrals; the solver returns the orbitals in reverse order *)
Definition mp_in : text := ini_file (["[CI]"; "JOB = CI"; "EXPANSION = ASCI"; "FCIDUMP_OUT = out.dump"] ++ dr_common ++ dr_solver ++ ["MP2_GUESS = ON"; "[ASCI]"; "NTDETS_MAX = 1"; "MAX_REFINE_ITER = 0"]).
Definition mp_is : list item := [Heading (lit "CI"); Entry 0 (lit "JOB") (lit "CI"); Entry 0 (lit "EXPANSION") (lit "ASCI"); Entry 0 (lit "FCIDUMP_OUT") (lit "out.dump")] ++ dr_common_is ++
  [Entry 0 (lit "MP2_GUESS") (lit "ON"); Heading (lit "ASCI"); Entry 0 (lit "NTDETS_MAX") (lit "1"); Entry 0 (lit "MAX_REFINE_ITER") (lit "0")].
Lemma mp_says : Forall2 line_says (lines mp_in) mp_is.
Proof.
  change (lines mp_in) with (map lit (["[CI]"; "JOB = CI"; "EXPANSION = ASCI"; "FCIDUMP_OUT = out.dump"] ++ dr_common ++ dr_solver ++ ["MP2_GUESS = ON"; "[ASCI]"; "NTDETS_MAX = 1"; "MAX_REFINE_ITER = 0"])).
  cbn [map app dr_common dr_solver]. unfold mp_is, dr_common_is. cbn [app]. sayings.
Qed.
Definition mp_o : driver_options := mk_driver_options JobCI ExpASCI 1 2 0 [] (lit "out.dump") dr_ci (dr_search 1 0 []) true (mk_print_options false (Q2Qc (1 # 100))).
Lemma mp_asked : asked exact (dr_fs mp_in) (lit "in.ini") 1 dr_es mp_o.
Proof. apply (dr_asked mp_in mp_is); [exact mp_says|vm_compute; tauto|vm_compute; reflexivity..|]. config; cbn; lia. Qed.
Definition mp_U : list Qc := [0%Qc; 0%Qc; 1%Qc; 0%Qc; 1%Qc; 0%Qc; 1%Qc; 0%Qc; 0%Qc].
Definition mp_syev (k : nat) (M : list Qc) (ld : nat) : res (list Qc * list Qc) :=
  if Nat.eqb k 3 && Nat.eqb ld 3 then Ok (mp_U, map (fun i => nth (4 * (2 - i)) M 0%Qc) (seq 0 3)) else Err Throw.
Lemma mp_orthonormal : orthonormal_vectors mp_syev.
Proof.
  intros k M ld C w H LM SM. unfold mp_syev in H. destruct (Nat.eqb_spec k 3) as [->|]; [|discriminate]. destruct (Nat.eqb_spec ld 3) as [->|]; [|discriminate].
  cbn [andb] in H. injection H as <- _. split; [reflexivity|].
  intros i j Hi Hj. destruct i as [|[|[|i]]], j as [|[|[|j]]]; try lia; apply Qc_is_canon; vm_compute; reflexivity.
Qed.
Definition mp_ob : res (list Qc * list Qc) := driver_orbitals mp_syev true 3 2 dT dV.
Definition mpT : list Qc := map (fun i => match i with 8 => z (-3) | _ => 0%Qc end) (seq 0 9).
Definition mpV : list Qc := match mp_ob with Ok (_, V) => V | Err _ => [] end.
Definition mpH : res (list Qc * list Qc * list Qc) := active_hamiltonian 3 2 1 mpT 3 mpV 3 (repeat 0%Qc 9) 3 (repeat 0%Qc 4) 2 (repeat 0%Qc 16) 2.
Definition mpF : list Qc := match mpH with Ok (F, _, _) => F | Err _ => [] end.
Definition mpTA : list Qc := match mpH with Ok (_, T, _) => T | Err _ => [] end.
Definition mpVA : list Qc := match mpH with Ok (_, _, V) => V | Err _ => [] end.
Lemma mp_orbitals : driver_orbitals mp_syev true 3 2 dT dV = Ok (mpT, mpV).
Proof.
  destruct (okb_ok mp_ob (fun x => same_list (fst x) mpT && same_list (snd x) mpV)) as ((T & V) & E & H); [vm_compute; reflexivity|].
  unfold mp_ob in E. rewrite E. apply andb_true_iff in H. destruct H as (H1 & H2). apply same_list_ok in H1, H2. cbn [fst snd] in *. congruence.
Qed.
Lemma mp_H : mpH = Ok (mpF, mpTA, mpVA).
Proof. apply okb3l. vm_compute. reflexivity. Qed.
Lemma mp_Ei : inactive_energy 1 mpT 3 mpF 3 = Ok q7.
Proof. apply q_ok. vm_compute. reflexivity. Qed.
Definition mp_f : text := match write_fcidump ex_show false 3 mpT 3 mpV 3 (Q2Qc (1 # 2)) with Ok f => f | Err _ => [] end.
Definition mp_run : nd outcome :=
  driver ex_root dr_syev mp_syev no_gelss ex_expm exact ex_show dec1 5 true (dr_fs mp_in) no_fsb (Some (lit "in.ini")).
Definition mp_E0 : Qc := match matrix_element 64 (held 2 (mpTA, mpVA)) 4294967297 4294967297 with Ok x => x | Err _ => 0%Qc end.
Lemma mp_runs : mp_run (Ok (mk_outcome (mp_E0 + (q7 + Q2Qc (1 # 2)))%Qc [] None (Some mp_f))) /\ (mp_E0 + (q7 + Q2Qc (1 # 2)) = Q2Qc (127 # 2))%Qc.
Proof.
  split; [|apply Qc_is_canon; vm_compute; reflexivity].
  eapply (run_back ex_root dr_syev mp_syev no_gelss ex_expm exact ex_show dec1 true (dr_fs mp_in) no_fsb (lit "in.ini") (lit "ints.dump") dr_dump (contents mp_is) (Z.of_nat 1) dr_es mp_o).
  - exists mp_in, mp_is. split; [reflexivity|]. split; [exact mp_says|]. split; [vm_compute; tauto|reflexivity].
  - apply dr_asks; vm_compute; reflexivity.
  - exists dr_dump. split; [reflexivity|exact dr_data].
  - change (max_index dr_es) with 3. config; cbn; lia.
  - reflexivity.
  - exact dr_ints.
  - exact mp_orbitals.
  - exact mp_H.
  - exact mp_Ei.
  - unfold job_part. change (d_job mp_o) with JobCI. change (d_exp mp_o) with ExpASCI. cbv iota.
    right. exists ((mp_E0 + (q7 + Q2Qc (1 # 2)))%Qc, None). split; [|reflexivity].
    unfold driver_asci_run. cbv zeta. apply (det_intro _ _ (held 2 (mpTA, mpVA))); [reflexivity|]. apply (det_intro _ _ (mp_E0, [4294967297%N], [1%Qc])).
    { unfold driver_guess. change (k_wfn_in (d_asci mp_o)) with (@nil ascii). cbv iota. change (Z.to_nat (Z.of_nat 1)) with 1. replace (canonical_hf 64 1 1) with (Ok 4294967297%N) by (vm_compute; reflexivity). cbn [bind].
      replace (matrix_element 64 (held 2 (mpTA, mpVA)) 4294967297 4294967297) with (Ok mp_E0) by (symmetry; apply q_ok; vm_compute; reflexivity). reflexivity. }
    right. exists (mp_E0, [4294967297%N], [1%Qc], (mpTA, mpVA)). split; [reflexivity|]. cbv iota beta. cbn [fst snd]. apply (det_intro _ _ (held 2 (mpTA, mpVA))); [reflexivity|].
    right. exists (mp_E0, [4294967297%N], [1%Qc]). split; [reflexivity|]. cbv iota beta. apply (det_intro _ _ None); [reflexivity|]. reflexivity.
  - vm_compute. reflexivity.
Qed.
Lemma mp2_example : asked exact (dr_fs mp_in) (lit "in.ini") 1 dr_es mp_o /\ d_mp2 mp_o = true /\ orthonormal_vectors mp_syev /\ d_fci_out mp_o <> [] /\
  exists out f, driver ex_root dr_syev mp_syev no_gelss ex_expm exact ex_show dec1 5 true (dr_fs mp_in) no_fsb (Some (lit "in.ini")) (Ok out) /\ out_fcidump out = Some f /\ out_E out = Q2Qc (127 # 2).
Proof.
  split; [exact mp_asked|]. split; [reflexivity|]. split; [exact mp_orthonormal|]. split; [discriminate|]. destruct mp_runs as (R & E). eexists. exists mp_f. split; [exact R|]. split; [reflexivity|exact E].
Qed.
