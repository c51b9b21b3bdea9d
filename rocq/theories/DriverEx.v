(** C66: input files that meet the hypotheses, and runs with them. *)
From Coq Require Import Ascii String QArith Qcanon ZArith NArith Bool Lqa.
From Verif Require Import Base Bits CsrView SparseSpec SD Spec Sums FockSpec Ham PropsHamGlue Nondet Mem Text TextProofs IO IOSpec IOGlue Dense DenseSpec DiisSpec Diis Davidson DavSpec DavProofs2 DavProofs5 DavProofs8 DavProofs14 DavEx Mcscf McscfSpec McscfEx CasciSpec Asci AsciSpec AsciRot AsciRotSpec
  FreezeSpec Ini IniSpec IniGlue Driver DriverSpec DriverProofs DriverProofs2 DriverProofs3 DriverProofs4 DriverGlue.
Local Open Scope nat_scope.
Local Open Scope string_scope.
Local Open Scope list_scope.

(** ** files *)
Definition dr_dump : text := file_of ["1 1 0 0 -3.0"; "1 1 1 1 1.0"; "3 3 3 3 7.0"; "2 2 3 3 20.0"; "2 3 2 3 12.0"; "0 0 0 0 0.5"].
Definition dr_es : list integral := [(1, 1, 0, 0, Q2Qc (-3 # 1)); (1, 1, 1, 1, 1%Qc); (3, 3, 3, 3, Q2Qc (7 # 1)); (2, 2, 3, 3, Q2Qc (20 # 1)); (2, 3, 2, 3, Q2Qc (12 # 1)); (0, 0, 0, 0, Q2Qc (1 # 2))].
Definition dr_common : list string := ["FCIDUMP = ints.dump"; "NALPHA = 1"; "NBETA = 1"; "NINACTIVE = 1"].
Definition dr_solver : list string := ["[MCSCF]"; "CI_RES_TOL = 1.0"; "CI_MAX_SUB = 2"; "CI_MATEL_TOL = 0.0"].
Definition dr_cas_in : text := ini_file (["# minimal example"; "[CI]"; "JOB = CI"] ++ dr_common ++ dr_solver ++ ["[PRINT]"; "DETERMINANTS = ON"]).
Definition dr_asci_in : text := ini_file (["[CI]"; "JOB = CI"; "EXPANSION = ASCI"; "FCIDUMP_OUT = out.dump"] ++ dr_common ++ dr_solver ++ ["[ASCI]"; "NTDETS_MAX = 1"; "MAX_REFINE_ITER = 0"; "WFN_OUT_FILE = wfn.out"]).
Definition dr_mcscf_in : text := ini_file (["[CI]"] ++ dr_common ++ dr_solver ++ ["MCSCF_ORB_TOL = 1000.0"]).
Definition dr_fs (input : text) (n : text) : option text :=
  if text_eq_dec n (lit "in.ini") then Some input else if text_eq_dec n (lit "ints.dump") then Some dr_dump else None.

Lemma dr_data : data_lines exact (lines dr_dump) dr_es /\ (forall e, In e dr_es -> proper e).
Proof.
  split.
  - unfold dr_es. change (lines dr_dump) with [lit "1 1 0 0 -3.0"; lit "1 1 1 1 1.0"; lit "3 3 3 3 7.0"; lit "2 2 3 3 20.0"; lit "2 3 2 3 12.0"; lit "0 0 0 0 0.5"].
    apply dl_data; [|apply dl_data; [|apply dl_data; [|apply dl_data; [|apply dl_data; [|apply dl_data; [|constructor]]]]]]; cbn [data_line].
    + dline (lit "1 1 0 0 -3.0").
    + dline (lit "1 1 1 1 1.0").
    + dline (lit "3 3 3 3 7.0").
    + dline (lit "2 2 3 3 20.0").
    + dline (lit "2 3 2 3 12.0").
    + dline (lit "0 0 0 0 0.5").
  - intros e [<-|[<-|[<-|[<-|[<-|[<-|[]]]]]]]; [right; left|right; right|right; right|right; right|right; right|left; reflexivity]; cbn; lia.
Qed.

(** lines "key = value" and "[heading]" *)
Definition plainb (t : text) : bool := match t with [] => false | _ => forallb (fun c => negb (Ascii.eqb c "=") && negb (Ascii.eqb c ":") && negb (Ascii.eqb c "#") && negb (Ascii.eqb c nl)) t &&
  negb (is_space (hd sp t)) && negb (is_space (last t sp)) end.
Lemma plainb_ok t : plainb t = true -> plain t.
Proof.
  unfold plainb. intros H. destruct t as [|c t]; [discriminate|]. apply andb_prop in H. destruct H as (H & H3). apply andb_prop in H. destruct H as (H1 & H2). apply negb_true_iff in H2, H3.
  split; [repeat split; auto; discriminate|]. intros x I X. rewrite forallb_forall in H1. specialize (H1 x I). destruct X as [<-|[<-|[<-|[<-|[]]]]]; discriminate.
Qed.
Lemma says_key k v l : l = lit k ++ lit " = " ++ lit v -> plainb (lit k) = true -> hd sp (lit k) <> "["%char -> plainb (lit v) = true -> line_says l (Entry 0 (lit k) (lit v)).
Proof.
  intros -> K H V. pose proof (says_entry 0 (lit k) [sp] "="%char [sp] (lit v) []) as S. cbn [repeat app] in S. rewrite app_nil_r in S. apply S; auto using plainb_ok.
  - intros c [<-|[]]. split; [reflexivity|discriminate].
  - intros c [<-|[]]. split; [reflexivity|discriminate].
  - exists []. split; auto. intros c [].
Qed.
Lemma lit_app a b : lit (a ++ b)%string = lit a ++ lit b.
Proof. induction a as [|c a IH]; [reflexivity|]. cbn. f_equal. exact IH. Qed.
Lemma says_head h l : l = lit ("[" ++ h ++ "]")%string -> forallb (fun c => negb (Ascii.eqb c "]") && negb (Ascii.eqb c "#") && negb (Ascii.eqb c nl)) (lit h) = true -> line_says l (Heading (lit h)).
Proof.
  intros -> H. pose proof (says_heading 0 (lit h) 0) as S. cbn [repeat app] in S. rewrite !lit_app.
  apply S. intros c I X. rewrite forallb_forall in H. specialize (H c I). destruct X as [<-|[<-|[<-|[]]]]; discriminate.
Qed.
Definition dr_common_is : list item := [Entry 0 (lit "FCIDUMP") (lit "ints.dump"); Entry 0 (lit "NALPHA") (lit "1"); Entry 0 (lit "NBETA") (lit "1"); Entry 0 (lit "NINACTIVE") (lit "1");
  Heading (lit "MCSCF"); Entry 0 (lit "CI_RES_TOL") (lit "1.0"); Entry 0 (lit "CI_MAX_SUB") (lit "2"); Entry 0 (lit "CI_MATEL_TOL") (lit "0.0")].
Definition dr_cas_is : list item := [Remark; Heading (lit "CI"); Entry 0 (lit "JOB") (lit "CI")] ++ dr_common_is ++ [Heading (lit "PRINT"); Entry 0 (lit "DETERMINANTS") (lit "ON")].
Definition dr_asci_is : list item := [Heading (lit "CI"); Entry 0 (lit "JOB") (lit "CI"); Entry 0 (lit "EXPANSION") (lit "ASCI"); Entry 0 (lit "FCIDUMP_OUT") (lit "out.dump")] ++ dr_common_is ++
  [Heading (lit "ASCI"); Entry 0 (lit "NTDETS_MAX") (lit "1"); Entry 0 (lit "MAX_REFINE_ITER") (lit "0"); Entry 0 (lit "WFN_OUT_FILE") (lit "wfn.out")].
Definition dr_mcscf_is : list item := [Heading (lit "CI")] ++ dr_common_is ++ [Entry 0 (lit "MCSCF_ORB_TOL") (lit "1000.0")].
Ltac sayings := repeat (apply Forall2_cons; [first [eapply says_key; [reflexivity|reflexivity|discriminate|reflexivity]|eapply says_head; [reflexivity|reflexivity]
  |apply (says_remark 0 (lit " minimal example")); intros c I [<-|[]]; vm_compute in I; intuition discriminate]|]); apply Forall2_nil.
Lemma dr_cas_says : Forall2 line_says (lines dr_cas_in) dr_cas_is.
Proof.
  change (lines dr_cas_in) with (map lit (["# minimal example"; "[CI]"; "JOB = CI"] ++ dr_common ++ dr_solver ++ ["[PRINT]"; "DETERMINANTS = ON"])).
  cbn [map app dr_common dr_solver]. unfold dr_cas_is, dr_common_is. cbn [app]. sayings.
Qed.
Lemma dr_asci_says : Forall2 line_says (lines dr_asci_in) dr_asci_is.
Proof.
  change (lines dr_asci_in) with (map lit (["[CI]"; "JOB = CI"; "EXPANSION = ASCI"; "FCIDUMP_OUT = out.dump"] ++ dr_common ++ dr_solver ++ ["[ASCI]"; "NTDETS_MAX = 1"; "MAX_REFINE_ITER = 0"; "WFN_OUT_FILE = wfn.out"])).
  cbn [map app dr_common dr_solver]. unfold dr_asci_is, dr_common_is. cbn [app]. sayings.
Qed.
Lemma dr_mcscf_says : Forall2 line_says (lines dr_mcscf_in) dr_mcscf_is.
Proof.
  change (lines dr_mcscf_in) with (map lit (["[CI]"] ++ dr_common ++ dr_solver ++ ["MCSCF_ORB_TOL = 1000.0"])).
  cbn [map app dr_common dr_solver]. unfold dr_mcscf_is, dr_common_is. cbn [app]. sayings.
Qed.

(** ** what they ask for *)
Definition dr_ci : mcscf_options := mk_mcscf_options 100 (Q2Qc (1 # 2)) (Q2Qc (5 # 1000000)) true 3 10 1%Qc 2 0%Qc.
Definition dr_orb : mcscf_options := mk_mcscf_options 100 (Q2Qc (1 # 2)) (Q2Qc (1000 # 1)) true 3 10 1%Qc 2 0%Qc.
Definition dr_search (ntdets refine : Z) (out : text) : asci_options :=
  mk_asci_options ntdets 100 100 (Q2Qc (1 # 100000000)) (Q2Qc (1 # 100000000)) 500000000 8 refine (Q2Qc (1 # 1000000)) false 1000 [] out None.
Definition dr_cas_o : driver_options := mk_driver_options JobCI ExpCAS 1 2 0 [] [] dr_ci (dr_search 100000 6 []) false (mk_print_options true (Q2Qc (1 # 100))).
Definition dr_asci_o : driver_options := mk_driver_options JobCI ExpASCI 1 2 0 [] (lit "out.dump") dr_ci (dr_search 1 0 (lit "wfn.out")) false (mk_print_options false (Q2Qc (1 # 100))).
Definition dr_mcscf_o : driver_options := mk_driver_options JobMCSCF ExpCAS 1 2 0 [] [] dr_orb (dr_search 100000 6 []) false (mk_print_options false (Q2Qc (1 # 100))).
Lemma dbl t x : okb (stod exact t) (sameq x) = true -> a_double exact t x.
Proof. intros H. apply okb_ok in H. destruct H as (y & E & H). apply sameq_ok in H. unfold a_double. congruence. Qed.
Ltac pick := unfold chosen, given; match goal with |- context [c_value (contents ?is) ?a ?b] => let v := eval vm_compute in (c_value (contents is) a b) in change (c_value (contents is) a b) with v end; cbv iota beta;
  first [reflexivity | apply dbl; vm_compute; reflexivity | left; split; reflexivity | right; split; reflexivity | split; [intros _; right; reflexivity|reflexivity]].
Ltac config := unfold configured; repeat match goal with
  | |- mcscf_as_asked _ _ _ => unfold mcscf_as_asked | |- asci_as_asked _ _ _ => unfold asci_as_asked
  | |- _ /\ _ => split
  | |- exists g, chosen _ _ "GROW_FACTOR" _ _ _ /\ _ => exists 8%Z
  | |- exists g, chosen _ _ "CONSTRAINT_LVL" _ _ _ => exists 2%Z
  | |- chosen _ _ _ _ _ _ => pick
  end; try reflexivity.
Lemma dr_asks : forall is, c_value (contents is) (lit "CI") (lit "FCIDUMP") = Some (lit "ints.dump") -> c_value (contents is) (lit "CI") (lit "NALPHA") = Some (lit "1") -> c_value (contents is) (lit "CI") (lit "NBETA") = Some (lit "1") ->
  asks_for (contents is) (lit "ints.dump") (Z.of_nat 1).
Proof. intros is A B C. split; [eexists; split; [exact A|reflexivity]|]. split; eexists; (split; [eassumption|vm_compute; reflexivity]). Qed.
Lemma dr_asked input is o : Forall2 line_says (lines input) is -> laid_out false false is ->
  c_value (contents is) (lit "CI") (lit "FCIDUMP") = Some (lit "ints.dump") -> c_value (contents is) (lit "CI") (lit "NALPHA") = Some (lit "1") -> c_value (contents is) (lit "CI") (lit "NBETA") = Some (lit "1") ->
  configured exact (contents is) 3 o -> asked exact (dr_fs input) (lit "in.ini") 1 dr_es o.
Proof.
  intros S L A B C D. exists (contents is), (lit "ints.dump"). split; [exists input, is; auto|]. split; [apply dr_asks; auto|]. split; [exists dr_dump; split; [reflexivity|exact dr_data]|]. exact D.
Qed.
Lemma dr_cas_asked : asked exact (dr_fs dr_cas_in) (lit "in.ini") 1 dr_es dr_cas_o.
Proof. apply (dr_asked dr_cas_in dr_cas_is); [exact dr_cas_says|vm_compute; tauto|vm_compute; reflexivity..|]. config; cbn; lia. Qed.
Lemma dr_asci_asked : asked exact (dr_fs dr_asci_in) (lit "in.ini") 1 dr_es dr_asci_o.
Proof. apply (dr_asked dr_asci_in dr_asci_is); [exact dr_asci_says|vm_compute; tauto|vm_compute; reflexivity..|]. config; cbn; lia. Qed.
Lemma dr_mcscf_asked : asked exact (dr_fs dr_mcscf_in) (lit "in.ini") 1 dr_es dr_mcscf_o.
Proof. apply (dr_asked dr_mcscf_in dr_mcscf_is); [exact dr_mcscf_says|vm_compute; tauto|vm_compute; reflexivity..|]. config; cbn; lia. Qed.

(** ** runs *)
Section BACK.
  Variables (root : Qc -> Qc) (syev : nat -> list Qc -> res (list Qc * list Qc)) (syev_ld : nat -> list Qc -> nat -> res (list Qc * list Qc))
            (gelss : nat -> list Qc -> list Qc -> res (list Qc)) (expm : nat -> list Qc -> res (list Qc))
            (rnd : Q -> res Qc) (show : Qc -> text) (dec : list N -> Qc).
  Variables (dbg : bool) (fs : text -> option text) (fsb : text -> option (list N)).
  Variables (name fname ff : text) (c : content) (nel : Z) (es : list integral) (o : driver_options).
  Hypothesis Hin : input_file fs name c.
  Hypothesis Hask : asks_for c fname nel.
  Hypothesis Hfci : fcidump_file rnd fs fname es.
  Hypothesis Hconf : configured rnd c (max_index es) o.
  Hypothesis Hf : fs fname = Some ff.
  Local Notation no := (max_index es).
  Local Notation ni := (d_ninactive o).
  Local Notation na := (d_nactive o).
  Lemma run_back fuel E T V T' V' Fi TA VA Ei E0 dets w f : driver_integrals rnd ff = Ok (no, E, T, V) ->
    driver_orbitals syev_ld (d_mp2 o) no (ni + Z.to_nat nel) T V = Ok (T', V') ->
    active_hamiltonian no na ni T' no V' no (repeat 0%Qc (no * no)) no (repeat 0%Qc (na * na)) na (repeat 0%Qc (na * na * (na * na))) na = Ok (Fi, TA, VA) ->
    inactive_energy ni T' no Fi no = Ok Ei ->
    job_part root syev gelss expm rnd show dec dbg fs fsb nel es o fuel E T' V' Ei TA VA (Ok (E0, dets, w)) ->
    (match d_fci_out o with [] => Ok None | _ => do f <- write_fcidump show false no T' no V' no E; Ok (Some f) end) = Ok f ->
    driver root syev syev_ld gelss expm rnd show dec fuel dbg fs fsb (Some name) (Ok (mk_outcome E0 dets w f)).
  Proof.
    destruct Hin as (fi & is & F1 & F2 & F3 & E1). destruct Hfci as (ff' & G1 & G2 & G3). rewrite Hf in G1. injection G1 as <-.
    destruct (ini_reads fi is F2 F3) as (d & P1 & P2 & _). rewrite <- E1 in P2. intros I O AH IE J W.
    unfold driver. eapply det_intro; [reflexivity|]. eapply det_intro; [rewrite F1; exact P1|].
    eapply det_intro; [exact (proj2 (required_ok d c P2 fname nel) Hask)|]. cbv iota beta. eapply det_intro; [unfold stream; rewrite Hf; exact I|]. cbv iota beta.
    eapply det_intro; [exact (proj2 (setup_ok rnd d c P2 no o (max_index_bound _ _ _ G2)) Hconf)|]. cbv zeta. eapply det_intro; [exact O|]. cbv iota beta.
    eapply det_intro; [exact AH|]. cbv iota beta. eapply det_intro; [exact IE|]. right. exists (E0, dets, w). split; [exact J|]. cbv iota beta. eapply det_intro; [exact W|]. reflexivity.
  Qed.
  Lemma run_err fuel E T V T' V' Fi TA VA Ei e : driver_integrals rnd ff = Ok (no, E, T, V) ->
    driver_orbitals syev_ld (d_mp2 o) no (ni + Z.to_nat nel) T V = Ok (T', V') ->
    active_hamiltonian no na ni T' no V' no (repeat 0%Qc (no * no)) no (repeat 0%Qc (na * na)) na (repeat 0%Qc (na * na * (na * na))) na = Ok (Fi, TA, VA) ->
    inactive_energy ni T' no Fi no = Ok Ei ->
    job_part root syev gelss expm rnd show dec dbg fs fsb nel es o fuel E T' V' Ei TA VA (Err e) ->
    driver root syev syev_ld gelss expm rnd show dec fuel dbg fs fsb (Some name) (Err e).
  Proof.
    destruct Hin as (fi & is & F1 & F2 & F3 & E1). destruct Hfci as (ff' & G1 & G2 & G3). rewrite Hf in G1. injection G1 as <-.
    destruct (ini_reads fi is F2 F3) as (d & P1 & P2 & _). rewrite <- E1 in P2. intros I O AH IE J.
    unfold driver. eapply det_intro; [reflexivity|]. eapply det_intro; [rewrite F1; exact P1|].
    eapply det_intro; [exact (proj2 (required_ok d c P2 fname nel) Hask)|]. cbv iota beta. eapply det_intro; [unfold stream; rewrite Hf; exact I|]. cbv iota beta.
    eapply det_intro; [exact (proj2 (setup_ok rnd d c P2 no o (max_index_bound _ _ _ G2)) Hconf)|]. cbv zeta. eapply det_intro; [exact O|]. cbv iota beta.
    eapply det_intro; [exact AH|]. cbv iota beta. eapply det_intro; [exact IE|]. left. exists e. split; [exact J|reflexivity].
  Qed.
End BACK.
Definition dT : list Qc := match driver_integrals exact dr_dump with Ok (_, _, T, _) => T | Err _ => [] end.
Definition dV : list Qc := match driver_integrals exact dr_dump with Ok (_, _, _, V) => V | Err _ => [] end.
Definition dH : res (list Qc * list Qc * list Qc) := active_hamiltonian 3 2 1 dT 3 dV 3 (repeat 0%Qc 9) 3 (repeat 0%Qc 4) 2 (repeat 0%Qc 16) 2.
Definition dF : list Qc := match dH with Ok (F, _, _) => F | Err _ => [] end.
Definition dTA : list Qc := repeat 0%Qc 4.
Definition dVA : list Qc := map (fun x => match x with 15 => Q2Qc (7 # 1) | 3 | 12 => Q2Qc (20 # 1) | 5 | 6 | 9 | 10 => Q2Qc (12 # 1) | _ => 0%Qc end) (seq 0 16).
Lemma dr_ints : driver_integrals exact dr_dump = Ok (3, Q2Qc (1 # 2), dT, dV).
Proof.
  destruct (okb_ok (driver_integrals exact dr_dump) (fun x => let '(n, e, T, V) := x in Nat.eqb n 3 && sameq e (Q2Qc (1 # 2)) && same_list T dT && same_list V dV)) as ((((n & e) & T) & V) & E & H); [vm_compute; reflexivity|].
  rewrite E. repeat (apply andb_true_iff in H; destruct H as [H ?]). apply Nat.eqb_eq in H. repeat match goal with X : same_list _ _ = true |- _ => apply same_list_ok in X | X : sameq _ _ = true |- _ => apply sameq_ok in X end. congruence.
Qed.
Lemma okb3l (m : res (list Qc * list Qc * list Qc)) a b c : okb m (fun x => same_list (fst (fst x)) a && same_list (snd (fst x)) b && same_list (snd x) c) = true -> m = Ok (a, b, c).
Proof. intros H. apply okb_ok in H. destruct H as (((x & y) & w) & E & H). cbn [fst snd] in H. apply andb_true_iff in H. destruct H as [H H3]. apply andb_true_iff in H. destruct H as [H1 H2]. apply same_list_ok in H1, H2, H3. congruence. Qed.
Lemma dr_H : dH = Ok (dF, dTA, dVA).
Proof. apply okb3l. vm_compute. reflexivity. Qed.
Lemma dr_Ei : inactive_energy 1 dT 3 dF 3 = Ok (z (-5)).
Proof. apply q_ok. vm_compute. reflexivity. Qed.

Definition q12 : Qc := Q2Qc (12 # 1).
Definition q20 : Qc := Q2Qc (20 # 1).
Definition q7 : Qc := Q2Qc (7 # 1).
Definition dr_M : list Qc := [0%Qc; q12; q12; q7].
Definition dr_syev (k : nat) (M : list Qc) : res (list Qc * list Qc) :=
  if Nat.eqb k 2 && same_list M dr_M then Ok ([z (-9); z 16], [q45; (- q35)%Qc; q35; q45]) else Err Throw.
Lemma dr_syev_solves : eigensolver dr_syev.
Proof.
  intros k M W C H LM SM. unfold dr_syev in H. destruct (Nat.eqb_spec k 2) as [->|]; [|discriminate]. destruct (same_list M dr_M) eqn:EM; [|discriminate]. apply same_list_ok in EM. subst M.
  cbn [andb] in H. injection H as <- <-. split; [reflexivity|]. split; [reflexivity|]. split; [apply Qc_is_canon; vm_compute; reflexivity|]. split.
  - intros [|[|i]] Hi; [| |lia]; apply Qc_is_canon; vm_compute; reflexivity.
  - intros y. cbn [nth].
    assert (E : Sigma 2 (fun i => y i * Sigma 2 (fun j => at2 dr_M 2 i j * y j))%Qc = (q12 * y 0%nat * y 1%nat + q12 * y 0%nat * y 1%nat + q7 * y 1%nat * y 1%nat)%Qc).
    { change (y 0%nat * (0 * y 0%nat + (q12 * y 1%nat + 0)) + (y 1%nat * (q12 * y 0%nat + (q7 * y 1%nat + 0)) + 0) = q12 * y 0%nat * y 1%nat + q12 * y 0%nat * y 1%nat + q7 * y 1%nat * y 1%nat)%Qc. ring. }
    assert (E2 : norm2 2 y = (y 0%nat * y 0%nat + y 1%nat * y 1%nat)%Qc).
    { change (y 0%nat * y 0%nat + (y 1%nat * y 1%nat + 0) = y 0%nat * y 0%nat + y 1%nat * y 1%nat)%Qc. ring. }
    change ((z (-9) * norm2 2 y <= Sigma 2 (fun i => y i * Sigma 2 (fun j => at2 dr_M 2 i j * y j)))%Qc). rewrite E, E2.
    set (a := y 0%nat). set (b := y 1%nat).
    unfold Qcle, q12, q7, z. unfold Qcmult, Qcplus, Qcopp. cbn [this Q2Qc]. rewrite !Qred_correct.
    change (inject_Z (-9)) with (-9 # 1).
    pose proof (square_Q (3 * this a + 4 * this b)) as SQ. nra.
Qed.
Definition csr4 : csr := mk_csr 4 4 0 [0; 1; 3; 5; 7] [3; 1; 2; 1; 2; 0; 3] [q12; q20; q12; q12; q20; q12; q7].
Definition dets4 : list N := [4294967297; 8589934593; 4294967298; 8589934594]%N.
Definition mol4 : ints := held 2 (dTA, dVA).
Lemma mol4_matrix : make_csr_hamiltonian 64 mol4 0%Qc dets4 = Ok csr4.
Proof. vm_compute. reflexivity. Qed.
Lemma mol4_dets b : In b dets4 -> in_space 64 (norb mol4) b /\ size_is (alpha 64 b) 1 /\ size_is (beta 64 b) 1.
Proof. intros [<-|[<-|[<-|[<-|[]]]]]; (split; [cbn [norb mol4 held]; spc|split; sz]). Qed.
Lemma dr_ritz N V AV : gemm_tn N 2 V AV = Ok dr_M -> rayleigh_ritz dr_syev N 2 V AV = Ok ([z (-9); z 16], [q45; (- q35)%Qc; q35; q45]).
Proof. intros E. unfold rayleigh_ritz. rewrite E. cbn [bind]. unfold dr_syev. replace (same_list dr_M dr_M) with true by (vm_compute; reflexivity). reflexivity. Qed.
Definition dY : list Qc := [q45; 0%Qc; 0%Qc; (- q35)%Qc].
Lemma dr_ci4 : selected_ci_diag ex_root dr_syev 64 mol4 dets4 0%Qc 2 1%Qc [] (Ok (z (-9), dY)).
Proof.
  unfold selected_ci_diag. eapply det_intro; [exact mol4_matrix|].
  destruct (ci_built 64 mol4 0%Qc dets4 1 1) as (H & EH & CL & _); [left; reflexivity|cbn; lia| |exact mol4_dets|apply Qcle_refl|].
  { intros p q r s Hp Hq Hr Hs. cbn [norb mol4 held] in *. destruct p as [|[|p]], q as [|[|q]], r as [|[|r]], s as [|[|s]]; try lia; reflexivity. }
  assert (H = csr4) by (pose proof mol4_matrix; congruence). subst H. clear EH.
  apply (serial_back _ _ csr4 (csr_entry csr4) 2 1%Qc [] 1); [exact CL|cbn; lia|reflexivity|intros [|j]; reflexivity|].
  change (csr_m csr4) with 4. change (Nat.min 2 4) with 2.
  match goal with |- context [diag_of_matrix 4 ?A] => replace (diag_of_matrix 4 A) with [0%Qc; q20; q20; q7] by reflexivity end.
  change (unit_vector 4 (min_element [0%Qc; q20; q20; q7])) with [1%Qc; 0%Qc; 0%Qc; 0%Qc].
  unfold davidson_run. cbv zeta. run0. run0.
  mvs [0%Qc; 0%Qc; 0%Qc; q12]. run0. run0. run0.
  apply (det_intro _ _ [0%Qc; 0%Qc; 0%Qc; 1%Qc]); [qv|].
  run0. change (2 - 1) with 1. cbn [davidson_loop]. run0. run0. mvs [q12; 0%Qc; 0%Qc; q7]. run0.
  eapply det_intro; [apply dr_ritz; qv|].
  cbn beta iota. run0.
  apply (det_intro _ _ dY); [qv|].
  apply (det_intro _ _ [0%Qc; 0%Qc; 0%Qc; 0%Qc]); [qv|].
  apply (det_intro _ _ 0%Qc); [apply q_ok; vm_compute; reflexivity|].
  replace (qlt (ex_root 0) 1) with true by (vm_compute; reflexivity). reflexivity.
Qed.
Definition no_syev_ld (k : nat) (M : list Qc) (ld : nat) : res (list Qc * list Qc) := Err Throw.
Definition ex_show (v : Qc) : text := lit
  (if sameq v 0%Qc then "0.0" else if sameq v 1%Qc then "1.0" else if sameq v (z (-3)) then "-3.0" else if sameq v q7 then "7.0" else
   if sameq v q12 then "12.0" else if sameq v q20 then "20.0" else "0.5").
Definition no_fsb (n : text) : option (list N) := None.
Definition dr_run (input : text) : nd outcome :=
  driver ex_root dr_syev no_syev_ld no_gelss ex_expm exact ex_show dec1 5 true (dr_fs input) no_fsb (Some (lit "in.ini")).
Lemma dr_back input is o E0 dets w f : Forall2 line_says (lines input) is -> laid_out false false is ->
  c_value (contents is) (lit "CI") (lit "FCIDUMP") = Some (lit "ints.dump") -> c_value (contents is) (lit "CI") (lit "NALPHA") = Some (lit "1") -> c_value (contents is) (lit "CI") (lit "NBETA") = Some (lit "1") ->
  configured exact (contents is) 3 o -> d_mp2 o = false -> d_ninactive o = 1 -> d_nactive o = 2 ->
  job_part ex_root dr_syev no_gelss ex_expm exact ex_show dec1 true (dr_fs input) no_fsb (Z.of_nat 1) dr_es o 5 (Q2Qc (1 # 2)) dT dV (z (-5)) dTA dVA (Ok (E0, dets, w)) ->
  (match d_fci_out o with [] => Ok None | _ => do f <- write_fcidump ex_show false 3 dT 3 dV 3 (Q2Qc (1 # 2)); Ok (Some f) end) = Ok f ->
  dr_run input (Ok (mk_outcome E0 dets w f)).
Proof.
  intros S L A B C D M N1 N2 J W.
  eapply (run_back ex_root dr_syev no_syev_ld no_gelss ex_expm exact ex_show dec1 true (dr_fs input) no_fsb (lit "in.ini") (lit "ints.dump") dr_dump (contents is) (Z.of_nat 1) dr_es o).
  - exists input, is. auto.
  - apply dr_asks; auto.
  - exists dr_dump. split; [reflexivity|exact dr_data].
  - exact D.
  - reflexivity.
  - exact dr_ints.
  - rewrite M. reflexivity.
  - rewrite N1, N2. exact dr_H.
  - rewrite N1. exact dr_Ei.
  - exact J.
  - exact W.
Qed.
Definition dR : list Qc * list Qc := match form_rdms_arrays 64 2 dets4 dY (repeat 0%Qc 4) (repeat 0%Qc 16) with Ok x => x | Err _ => ([], []) end.
Lemma dr_rdms st : ci_matel_tol st = 0%Qc -> ci_max_subspace st = 2 -> ci_res_tol st = 1%Qc ->
  compute_casci_rdms ex_root dr_syev 5 64 st 2 1 1 dTA dVA (repeat 0%Qc 4) (repeat 0%Qc 16) [] (Ok (z (-9), fst dR, snd dR, dY)).
Proof.
  intros A B C. unfold compute_casci_rdms. eapply det_intro; [reflexivity|]. apply (det_intro _ _ dets4); [vm_compute; reflexivity|].
  right. exists (z (-9), dY). split; [rewrite A, B, C; exact dr_ci4|]. apply (det_intro _ _ dR); [vm_compute; reflexivity|]. reflexivity.
Qed.
Lemma dr_cas_run : exists out, dr_run dr_cas_in (Ok out) /\ out_E out = Q2Qc (-27 # 2) /\ out_wfn out = None /\ out_fcidump out = None /\
  map snd (out_dets out) = [lit "20000000000000000000000000000000"; lit "02000000000000000000000000000000"] /\ map fst (out_dets out) = [q45; (- q35)%Qc].
Proof.
  exists (mk_outcome (z (-9) + (z (-5) + Q2Qc (1 # 2)))%Qc [(q45, lit "20000000000000000000000000000000"); ((- q35)%Qc, lit "02000000000000000000000000000000")] None None). split.
  - apply (dr_back dr_cas_in dr_cas_is dr_cas_o); try reflexivity; [exact dr_cas_says|vm_compute; tauto| |].
    { config; cbn; lia. }
    unfold job_part. change (d_job dr_cas_o) with JobCI. change (d_exp dr_cas_o) with ExpCAS. cbv iota.
    right. exists ((z (-9) + (z (-5) + Q2Qc (1 # 2)))%Qc, [(q45, lit "20000000000000000000000000000000"); ((- q35)%Qc, lit "02000000000000000000000000000000")]). split; [|reflexivity].
    unfold driver_cas. right. exists (z (-9), fst dR, snd dR, dY). split; [apply dr_rdms; reflexivity|]. cbv iota beta. eapply det_intro; [|reflexivity]. vm_compute. reflexivity.
  - split; [apply Qc_is_canon; vm_compute; reflexivity|]. repeat split.
Qed.
Lemma show_ok v : okb (stod exact (ex_show v)) (sameq v) = true -> prints ex_show exact v.
Proof.
  intros H. split; [|split].
  - unfold ex_show. intros c. repeat destruct (sameq v _); vm_compute; intuition (subst; reflexivity).
  - unfold ex_show. repeat destruct (sameq v _); vm_compute; tauto.
  - apply dbl in H. exact H.
Qed.
Lemma dr_T_prints p q : p < 3 -> q < 3 -> prints ex_show exact (file_T dr_es p q).
Proof. intros Hp Hq. apply show_ok. destruct p as [|[|[|p]]], q as [|[|[|q]]]; try lia; vm_compute; reflexivity. Qed.
Lemma dr_V_prints p q r s : p < 3 -> q < 3 -> r < 3 -> s < 3 -> prints ex_show exact (file_V dr_es p q r s).
Proof.
  intros Hp Hq Hr Hs. apply show_ok.
  assert (G : forallb (fun p => forallb (fun q => forallb (fun r => forallb (fun s => okb (stod exact (ex_show (file_V dr_es p q r s))) (sameq (file_V dr_es p q r s))) (seq 0 3)) (seq 0 3)) (seq 0 3)) (seq 0 3) = true) by (vm_compute; reflexivity).
  rewrite forallb_forall in G. specialize (G p ltac:(apply in_seq; lia)). rewrite forallb_forall in G. specialize (G q ltac:(apply in_seq; lia)).
  rewrite forallb_forall in G. specialize (G r ltac:(apply in_seq; lia)). rewrite forallb_forall in G. exact (G s ltac:(apply in_seq; lia)).
Qed.
Definition dw : text := match write_wavefunction ex_show 64 2 [4294967297%N] [1%Qc] [] with Ok f => f | Err _ => [] end.
Definition df : text := match write_fcidump ex_show false 3 dT 3 dV 3 (Q2Qc (1 # 2)) with Ok f => f | Err _ => [] end.
Lemma dr_guess : driver_guess exact (dr_fs dr_asci_in) (d_asci dr_asci_o) mol4 1 (z (-5)) (Q2Qc (1 # 2)) = Ok (0%Qc, [4294967297%N], [1%Qc]).
Proof.
  unfold driver_guess. change (k_wfn_in (d_asci dr_asci_o)) with (@nil ascii). cbv iota. replace (canonical_hf 64 1 1) with (Ok 4294967297%N) by (vm_compute; reflexivity). cbn [bind].
  replace (matrix_element 64 mol4 4294967297 4294967297) with (Ok 0%Qc) by (symmetry; apply q_ok; vm_compute; reflexivity). reflexivity.
Qed.
Lemma dr_asci_run : exists out, dr_run dr_asci_in (Ok out) /\ out_E out = Q2Qc (-9 # 2) /\ out_dets out = [] /\ (exists f, out_wfn out = Some f) /\ exists f, out_fcidump out = Some f.
Proof.
  exists (mk_outcome (0 + (z (-5) + Q2Qc (1 # 2)))%Qc [] (Some dw) (Some df)). split.
  - apply (dr_back dr_asci_in dr_asci_is dr_asci_o); try reflexivity; [exact dr_asci_says|vm_compute; tauto| |].
    { config; cbn; lia. }
    unfold job_part. change (d_job dr_asci_o) with JobCI. change (d_exp dr_asci_o) with ExpASCI. cbv iota.
    right. exists ((0 + (z (-5) + Q2Qc (1 # 2)))%Qc, Some dw). split; [|reflexivity].
    unfold driver_asci_run. cbv zeta. apply (det_intro _ _ mol4); [reflexivity|]. eapply det_intro; [exact dr_guess|].
    right. exists (0%Qc, [4294967297%N], [1%Qc], (dTA, dVA)). split; [reflexivity|]. cbv iota beta. cbn [fst snd]. apply (det_intro _ _ mol4); [reflexivity|].
    right. exists (0%Qc, [4294967297%N], [1%Qc]). split; [reflexivity|]. cbv iota beta. apply (det_intro _ _ (Some dw)); [vm_compute; reflexivity|]. reflexivity.
  - split; [apply Qc_is_canon; vm_compute; reflexivity|]. split; [reflexivity|]. split; eexists; reflexivity.
Qed.

Lemma dr_mcscf_run : exists out, dr_run dr_mcscf_in (Ok out) /\ out_E out = Q2Qc (-27 # 2).
Proof.
  set (st := mcscf_settings dr_orb).
  set (m := do E1 <- dot_ 4 (fst dR) dTA; do E2 <- dot_ 16 (snd dR) dVA;
            do G <- gradient 3 1 2 0 2 2 dV 3 (fst dR) (snd dR) dF (repeat 0%Qc 9) (repeat 0%Qc 6) (repeat 0%Qc 9) (repeat 0%Qc (0 * 3 + 2 * 1));
            do g <- nrm2 ex_root (snd G); Ok (E1, E2, G, g)).
  destruct (okb_ok m (fun x => let '(E1, E2, G, g) := x in sameq (E1 + E2 + (z (-5) + Q2Qc (1 # 2)))%Qc (Q2Qc (-27 # 2)) && qlt g (Q2Qc (1000 # 1)))) as ((((E1 & E2) & (((Fa & Qm) & F) & OG)) & g) & E & H); [vm_compute; reflexivity|].
  unfold m in E. apply bind_ok in E. destruct E as (e1 & Q1 & E). apply bind_ok in E. destruct E as (e2 & Q2 & E). apply bind_ok in E. destruct E as (G & Q3 & E). apply bind_ok in E. destruct E as (g' & Q4 & E). injection E as -> -> -> ->. cbn [snd] in Q4.
  apply andb_prop in H. destruct H as (H1 & H2). apply sameq_ok in H1.
  exists (mk_outcome (E1 + E2 + (z (-5) + Q2Qc (1 # 2)))%Qc [] None None). split; [|exact H1].
  apply (dr_back dr_mcscf_in dr_mcscf_is dr_mcscf_o); try reflexivity; [exact dr_mcscf_says|vm_compute; tauto| |].
  { config; cbn; lia. }
  unfold job_part. change (d_job dr_mcscf_o) with JobMCSCF. cbv iota.
  right. exists (E1 + E2 + (z (-5) + Q2Qc (1 # 2)))%Qc. split; [|reflexivity].
  unfold driver_mcscf_run. cbv zeta. change (d_rdm dr_mcscf_o) with (@nil ascii). cbv iota. eapply det_intro; [reflexivity|]. cbn [fst snd].
  right. exists (E1 + E2 + (z (-5) + Q2Qc (1 # 2)), fst dR, snd dR, (0%nat, true))%Qc. split; [|reflexivity].
  unfold casscf_diis, mcscf_impl. right. eexists. split.
  - unfold mcscf_start. eapply det_intro; [reflexivity|]. eapply det_intro; [reflexivity|]. eapply det_intro; [exact dr_H|]. cbv iota beta. eapply det_intro; [exact dr_Ei|]. cbv zeta.
    eapply det_intro; [reflexivity|]. right. exists (fst dR, snd dR, dY). split.
    + match goal with |- context [qlt ?a ?b] => replace (qlt a b) with true by (vm_compute; reflexivity) end.
      eapply det_intro; [reflexivity|]. eapply det_intro; [reflexivity|]. right. exists (z (-9), fst dR, snd dR, dY). split; [apply dr_rdms; reflexivity|reflexivity].
    + cbv iota beta. eapply det_intro; [exact Q1|]. eapply det_intro; [exact Q2|]. eapply det_intro; [exact Q3|]. cbv iota beta. eapply det_intro; [exact Q4|]. reflexivity.
  - change (orb_grad_tol (mcscf_settings (d_mcscf dr_mcscf_o))) with (Q2Qc (1000 # 1)). rewrite H2. right. eexists. split; [reflexivity|]. reflexivity.
Qed.

(** ** more electrons than active orbitals *)
Definition dr_bad_in : text := ini_file ["[CI]"; "JOB = CI"; "FCIDUMP = ints.dump"; "NALPHA = 3"; "NBETA = 3"; "NINACTIVE = 1"].
Definition dr_bad_is : list item := [Heading (lit "CI"); Entry 0 (lit "JOB") (lit "CI"); Entry 0 (lit "FCIDUMP") (lit "ints.dump"); Entry 0 (lit "NALPHA") (lit "3"); Entry 0 (lit "NBETA") (lit "3"); Entry 0 (lit "NINACTIVE") (lit "1")].
Definition dr_bad_o : driver_options := mk_driver_options JobCI ExpCAS 1 2 0 [] []
  (mk_mcscf_options 100 (Q2Qc (1 # 2)) (Q2Qc (5 # 1000000)) true 3 10 (Q2Qc (1 # 100000000)) 20 (Q2Qc (1 # 4503599627370496))) (dr_search 100000 6 []) false (mk_print_options false (Q2Qc (1 # 100))).
Lemma dr_bad_says : Forall2 line_says (lines dr_bad_in) dr_bad_is.
Proof.
  change (lines dr_bad_in) with (map lit ["[CI]"; "JOB = CI"; "FCIDUMP = ints.dump"; "NALPHA = 3"; "NBETA = 3"; "NINACTIVE = 1"]).
  cbn [map]. unfold dr_bad_is. sayings.
Qed.
Lemma dr_bad_conf : configured exact (contents dr_bad_is) 3 dr_bad_o.
Proof. config; cbn; lia. Qed.
Lemma dr_bad_input : input_file (dr_fs dr_bad_in) (lit "in.ini") (contents dr_bad_is).
Proof. exists dr_bad_in, dr_bad_is. split; [reflexivity|]. split; [exact dr_bad_says|]. split; [vm_compute; tauto|reflexivity]. Qed.
Lemma dr_bad_asks : asks_for (contents dr_bad_is) (lit "ints.dump") (Z.of_nat 3).
Proof. split; [eexists; split; [vm_compute; reflexivity|reflexivity]|]. split; eexists; (split; [vm_compute; reflexivity|vm_compute; reflexivity]). Qed.
Lemma dr_dump_file input : fcidump_file exact (dr_fs input) (lit "ints.dump") dr_es.
Proof. exists dr_dump. split; [reflexivity|exact dr_data]. Qed.
Lemma dr_bad_run : asked exact (dr_fs dr_bad_in) (lit "in.ini") 3 dr_es dr_bad_o /\ d_nactive dr_bad_o < 3 /\ dr_run dr_bad_in (Err UB).
Proof.
  split; [exists (contents dr_bad_is), (lit "ints.dump"); split; [exact dr_bad_input|]; split; [exact dr_bad_asks|]; split; [apply dr_dump_file|exact dr_bad_conf]|]. split; [cbn; lia|].
  eapply (run_err ex_root dr_syev no_syev_ld no_gelss ex_expm exact ex_show dec1 true (dr_fs dr_bad_in) no_fsb (lit "in.ini") (lit "ints.dump") dr_dump (contents dr_bad_is) (Z.of_nat 3) dr_es dr_bad_o).
  - exact dr_bad_input.
  - exact dr_bad_asks.
  - apply dr_dump_file.
  - exact dr_bad_conf.
  - reflexivity.
  - exact dr_ints.
  - reflexivity.
  - exact dr_H.
  - exact dr_Ei.
  - unfold job_part. change (d_job dr_bad_o) with JobCI. change (d_exp dr_bad_o) with ExpCAS. cbv iota. left. exists UB. split; [|reflexivity].
    unfold driver_cas. left. exists UB. split; [|reflexivity]. unfold compute_casci_rdms. eapply det_intro; [reflexivity|]. left. exists UB. split; [vm_compute; reflexivity|reflexivity].
Qed.

(** ** the energy of a wave function from a file *)
Definition dr_given_in : text := ini_file ["[CI]"; "JOB = CI"; "EXPANSION = ASCI"; "FCIDUMP = ints.dump"; "NALPHA = 1"; "NBETA = 1"; "NINACTIVE = 1"; "[ASCI]"; "NTDETS_MAX = 1"; "MAX_REFINE_ITER = 0"; "WFN_FILE = wfn.in"; "E0_WFN = -1000.0"].
Definition dr_given_is : list item := [Heading (lit "CI"); Entry 0 (lit "JOB") (lit "CI"); Entry 0 (lit "EXPANSION") (lit "ASCI"); Entry 0 (lit "FCIDUMP") (lit "ints.dump"); Entry 0 (lit "NALPHA") (lit "1"); Entry 0 (lit "NBETA") (lit "1"); Entry 0 (lit "NINACTIVE") (lit "1");
  Heading (lit "ASCI"); Entry 0 (lit "NTDETS_MAX") (lit "1"); Entry 0 (lit "MAX_REFINE_ITER") (lit "0"); Entry 0 (lit "WFN_FILE") (lit "wfn.in"); Entry 0 (lit "E0_WFN") (lit "-1000.0")].
Definition dr_free_in : text := ini_file ["[CI]"; "JOB = CI"; "EXPANSION = ASCI"; "FCIDUMP = ints.dump"; "NALPHA = 1"; "NBETA = 1"; "NINACTIVE = 1"; "[ASCI]"; "NTDETS_MAX = 1"; "MAX_REFINE_ITER = 0"; "WFN_FILE = wfn.in"].
Definition dr_free_is : list item := firstn 11 dr_given_is.
Definition dr_default : mcscf_options := mk_mcscf_options 100 (Q2Qc (1 # 2)) (Q2Qc (5 # 1000000)) true 3 10 (Q2Qc (1 # 100000000)) 20 (Q2Qc (1 # 4503599627370496)).
Definition dr_file_o (E0 : option Qc) : driver_options := mk_driver_options JobCI ExpASCI 1 2 0 [] [] dr_default
  (mk_asci_options 1 100 100 (Q2Qc (1 # 100000000)) (Q2Qc (1 # 100000000)) 500000000 8 0 (Q2Qc (1 # 1000000)) false 1000 (lit "wfn.in") [] E0) false (mk_print_options false (Q2Qc (1 # 100))).
Definition dr_fsw (input wfn : text) (n : text) : option text := if text_eq_dec n (lit "wfn.in") then Some wfn else dr_fs input n.
Definition wfn1 : text := file_of ["1 2 1 1"; "1.0 02000000000000000000000000000000"].
Definition wfn2 : text := file_of ["1 2 1 1"; "2.0 02000000000000000000000000000000"].
Lemma dr_given_says : Forall2 line_says (lines dr_given_in) dr_given_is.
Proof.
  change (lines dr_given_in) with (map lit ["[CI]"; "JOB = CI"; "EXPANSION = ASCI"; "FCIDUMP = ints.dump"; "NALPHA = 1"; "NBETA = 1"; "NINACTIVE = 1"; "[ASCI]"; "NTDETS_MAX = 1"; "MAX_REFINE_ITER = 0"; "WFN_FILE = wfn.in"; "E0_WFN = -1000.0"]).
  cbn [map]. unfold dr_given_is. sayings.
Qed.
Lemma dr_free_says : Forall2 line_says (lines dr_free_in) dr_free_is.
Proof.
  change (lines dr_free_in) with (map lit ["[CI]"; "JOB = CI"; "EXPANSION = ASCI"; "FCIDUMP = ints.dump"; "NALPHA = 1"; "NBETA = 1"; "NINACTIVE = 1"; "[ASCI]"; "NTDETS_MAX = 1"; "MAX_REFINE_ITER = 0"; "WFN_FILE = wfn.in"]).
  cbn [map]. unfold dr_free_is, dr_given_is. cbn [firstn]. sayings.
Qed.
Lemma dr_given_conf : configured exact (contents dr_given_is) 3 (dr_file_o (Some (z (-1000)))).
Proof.
  config; try (cbn; lia). unfold chosen. match goal with |- context [c_value (contents ?is) ?a ?b] => let v := eval vm_compute in (c_value (contents is) a b) in change (c_value (contents is) a b) with v end.
  cbv iota beta. exists (z (-1000)). split; [apply dbl; vm_compute; reflexivity|reflexivity].
Qed.
Lemma dr_free_conf : configured exact (contents dr_free_is) 3 (dr_file_o None).
Proof. config; cbn; lia. Qed.
Definition d4 : N := 8589934594%N.
Lemma dr_file_back input wfn is o E C : Forall2 line_says (lines input) is -> laid_out false false is ->
  c_value (contents is) (lit "CI") (lit "FCIDUMP") = Some (lit "ints.dump") -> c_value (contents is) (lit "CI") (lit "NALPHA") = Some (lit "1") -> c_value (contents is) (lit "CI") (lit "NBETA") = Some (lit "1") ->
  forall E0, o = dr_file_o E0 -> configured exact (contents is) 3 o ->
  driver_guess exact (dr_fsw input wfn) (d_asci o) mol4 1 (z (-5)) (Q2Qc (1 # 2)) = Ok (E, [d4], C) ->
  asked exact (dr_fsw input wfn) (lit "in.ini") 1 dr_es o /\
  driver ex_root dr_syev no_syev_ld no_gelss ex_expm exact ex_show dec1 5 true (dr_fsw input wfn) no_fsb (Some (lit "in.ini")) (Ok (mk_outcome (E + (z (-5) + Q2Qc (1 # 2)))%Qc [] None None)).
Proof.
  intros S L A B C' E0 -> D G.
  assert (I1 : input_file (dr_fsw input wfn) (lit "in.ini") (contents is)) by (exists input, is; auto).
  assert (I2 : fcidump_file exact (dr_fsw input wfn) (lit "ints.dump") dr_es) by (exists dr_dump; split; [reflexivity|exact dr_data]).
  split. { exists (contents is), (lit "ints.dump"). split; [exact I1|]. split; [apply dr_asks; auto|]. split; [exact I2|exact D]. }
  eapply (run_back ex_root dr_syev no_syev_ld no_gelss ex_expm exact ex_show dec1 true (dr_fsw input wfn) no_fsb (lit "in.ini") (lit "ints.dump") dr_dump (contents is) (Z.of_nat 1) dr_es (dr_file_o E0)).
  - exact I1.
  - apply dr_asks; auto.
  - exact I2.
  - exact D.
  - reflexivity.
  - exact dr_ints.
  - reflexivity.
  - exact dr_H.
  - exact dr_Ei.
  - unfold job_part. change (d_job (dr_file_o E0)) with JobCI. change (d_exp (dr_file_o E0)) with ExpASCI. cbv iota.
    right. exists ((E + (z (-5) + Q2Qc (1 # 2)))%Qc, None). split; [|reflexivity].
    unfold driver_asci_run. cbv zeta. apply (det_intro _ _ mol4); [reflexivity|]. eapply det_intro; [exact G|].
    right. exists (E, [d4], C, (dTA, dVA)). split; [reflexivity|]. cbv iota beta. cbn [fst snd]. apply (det_intro _ _ mol4); [reflexivity|].
    right. exists (E, [d4], C). split; [reflexivity|]. cbv iota beta. apply (det_intro _ _ None); [reflexivity|]. reflexivity.
  - reflexivity.
Qed.
Lemma wfn_ok (m : res (list N * list Qc)) ds C : okb m (fun x => (if list_eq_dec N.eq_dec (fst x) ds then true else false) && same_list (snd x) C) = true -> m = Ok (ds, C).
Proof. intros H. apply okb_ok in H. destruct H as ((a & b) & E & H). cbn [fst snd] in H. destruct (list_eq_dec N.eq_dec a ds) as [->|]; [|discriminate]. apply same_list_ok in H. congruence. Qed.
Lemma wfn1_read : read_wavefunction exact 64 wfn1 = Ok ([d4], [1%Qc]).
Proof. apply wfn_ok. vm_compute. reflexivity. Qed.
Lemma wfn2_read : read_wavefunction exact 64 wfn2 = Ok ([d4], [z 2]).
Proof. apply wfn_ok. vm_compute. reflexivity. Qed.
Lemma d4_state : wave_function 64 3 1 2 1 (file_T dr_es) (file_V dr_es) [d4] [1%Qc] (z 2).
Proof.
  assert (K : wave_function 64 3 1 2 1 (file_T dr_es) (file_V dr_es) [d4] [1%Qc]
    (core_energy 1 (file_T dr_es) (file_V dr_es) + expectation 1 (ci_matrix 64 (mk_ints 2 (active_T 1 (file_T dr_es) (file_V dr_es)) (active_V 1 (file_V dr_es))) 0%Qc [d4]) [1%Qc])%Qc).
  { apply state_fun; [cbn; lia|lia|lia| | |reflexivity|apply Qc_is_canon; vm_compute; reflexivity].
    - destruct (file_sym dr_es 3) as (_ & S). intros p q r s Hp Hq Hr Hs. apply S; auto.
    - split; [constructor; [intros []|constructor]|]. intros b [<-|[]]. apply mol4_dets. right. right. right. left. reflexivity. }
  match type of K with wave_function _ _ _ _ _ _ _ _ _ ?e => replace e with (z 2) in K by (apply Qc_is_canon; vm_compute; reflexivity) end. exact K.
Qed.
Lemma guess_file rnd fs a h ne Ei Ec r : k_wfn_in a <> [] ->
  (do w <- read_wavefunction rnd 64 (stream fs (k_wfn_in a));
   let '(dets, C) := w in
   do E0 <- match k_E0 a with None => file_energy h dets C | Some x => Ok (x - Ec - Ei)%Qc end; Ok (E0, dets, C)) = r ->
  driver_guess rnd fs a h ne Ei Ec = r.
Proof. unfold driver_guess. intros N H. destruct (k_wfn_in a); [contradiction|]. exact H. Qed.
Lemma given_energy : exists rnd fs name es o dets C E out, asked rnd fs name 1 es o /\ d_job o = JobCI /\ d_exp o = ExpASCI /\ k_rot (d_asci o) = false /\ (2 <= k_grow (d_asci o))%Z /\
  read_wavefunction rnd 64 (stream fs (k_wfn_in (d_asci o))) = Ok (dets, C) /\
  wave_function 64 (max_index es) (d_ninactive o) (d_nactive o) 1 (file_T es) (file_V es) dets C E /\
  driver ex_root dr_syev no_syev_ld no_gelss ex_expm rnd ex_show dec1 5 true fs no_fsb (Some name) (Ok out) /\
  (first_core es + E = Q2Qc (5 # 2))%Qc /\ out_E out = z (-1000).
Proof.
  destruct (dr_file_back dr_given_in wfn1 dr_given_is (dr_file_o (Some (z (-1000)))) (z (-1000) - Q2Qc (1 # 2) - z (-5))%Qc [1%Qc]) with (E0 := Some (z (-1000))) as (A & R); try reflexivity.
  { exact dr_given_says. } { vm_compute; tauto. } { exact dr_given_conf. }
  { apply guess_file; [discriminate|]. change (stream _ _) with wfn1. rewrite wfn1_read. reflexivity. }
  eexists _, _, _, _, _, _, _, _, _. split; [exact A|]. split; [reflexivity|]. split; [reflexivity|]. split; [reflexivity|]. split; [cbn; lia|]. split; [exact wfn1_read|]. split; [exact d4_state|]. split; [exact R|].
  split; apply Qc_is_canon; vm_compute; reflexivity.
Qed.
Lemma scaled_wfn : exists rnd fs name es o dets C C1 E out, asked rnd fs name 1 es o /\ d_job o = JobCI /\ d_exp o = ExpASCI /\ k_rot (d_asci o) = false /\ (2 <= k_grow (d_asci o))%Z /\ k_E0 (d_asci o) = None /\
  read_wavefunction rnd 64 (stream fs (k_wfn_in (d_asci o))) = Ok (dets, C) /\ C = map (Qcmult (z 2)) C1 /\
  wave_function 64 (max_index es) (d_ninactive o) (d_nactive o) 1 (file_T es) (file_V es) dets C1 E /\
  driver ex_root dr_syev no_syev_ld no_gelss ex_expm rnd ex_show dec1 5 true fs no_fsb (Some name) (Ok out) /\
  (first_core es + E = Q2Qc (5 # 2))%Qc /\ out_E out = Q2Qc (47 # 2).
Proof.
  destruct (dr_file_back dr_free_in wfn2 dr_free_is (dr_file_o None) (z 28) [z 2]) with (E0 := @None Qc) as (A & R); try reflexivity.
  { exact dr_free_says. } { vm_compute; tauto. } { exact dr_free_conf. }
  { apply guess_file; [discriminate|]. change (stream _ _) with wfn2. rewrite wfn2_read. cbn [bind k_E0 d_asci dr_file_o].
    replace (file_energy mol4 [d4] [z 2]) with (Ok (z 28)) by (symmetry; apply q_ok; vm_compute; reflexivity). reflexivity. }
  eexists _, _, _, _, _, _, _, [1%Qc], _, _. split; [exact A|]. split; [reflexivity|]. split; [reflexivity|]. split; [reflexivity|]. split; [cbn; lia|]. split; [reflexivity|]. split; [exact wfn2_read|]. split; [cbn [map]; f_equal; apply Qc_is_canon; vm_compute; reflexivity|].
  split; [exact d4_state|]. split; [exact R|].
  split; apply Qc_is_canon; vm_compute; reflexivity.
Qed.

(** ** the hypotheses of the theorems *)
Lemma cas_example : asked exact (dr_fs dr_cas_in) (lit "in.ini") 1 dr_es dr_cas_o /\ d_job dr_cas_o = JobCI /\ d_exp dr_cas_o = ExpCAS /\
  d_mp2 dr_cas_o = false /\ 1 <= d_nactive dr_cas_o /\ k_ci_matel (d_mcscf dr_cas_o) = 0%Qc /\ exact_root ex_root /\ eigensolver dr_syev /\
  exists out, driver ex_root dr_syev no_syev_ld no_gelss ex_expm exact ex_show dec1 5 true (dr_fs dr_cas_in) no_fsb (Some (lit "in.ini")) (Ok out) /\
    out_E out = Q2Qc (-27 # 2) /\ out_wfn out = None /\ out_fcidump out = None /\
    map snd (out_dets out) = [lit "20000000000000000000000000000000"; lit "02000000000000000000000000000000"] /\ map fst (out_dets out) = [q45; (- q35)%Qc].
Proof.
  split; [exact dr_cas_asked|]. split; [reflexivity|]. split; [reflexivity|]. split; [reflexivity|]. split; [cbn; lia|]. split; [reflexivity|]. split; [exact ex_root_exact|]. split; [exact dr_syev_solves|]. exact dr_cas_run.
Qed.
Lemma asci_example : asked exact (dr_fs dr_asci_in) (lit "in.ini") 1 dr_es dr_asci_o /\ d_job dr_asci_o = JobCI /\ d_exp dr_asci_o = ExpASCI /\
  d_mp2 dr_asci_o = false /\ 1 < d_nactive dr_asci_o /\ k_ci_matel (d_mcscf dr_asci_o) = 0%Qc /\ exact_root ex_root /\ eigensolver dr_syev /\
  k_rot (d_asci dr_asci_o) = false /\ starting_point exact (dr_fs dr_asci_in) (d_asci dr_asci_o) (d_nactive dr_asci_o) 1 1 /\ prints ex_show exact 1%Qc /\
  exists out, driver ex_root dr_syev no_syev_ld no_gelss ex_expm exact ex_show dec1 5 true (dr_fs dr_asci_in) no_fsb (Some (lit "in.ini")) (Ok out) /\
    out_E out = Q2Qc (-9 # 2) /\ out_dets out = [] /\ (exists f, out_wfn out = Some f) /\ exists f, out_fcidump out = Some f.
Proof.
  split; [exact dr_asci_asked|]. split; [reflexivity|]. split; [reflexivity|]. split; [reflexivity|]. split; [cbn; lia|]. split; [reflexivity|]. split; [exact ex_root_exact|]. split; [exact dr_syev_solves|].
  split; [reflexivity|]. split; [left; split; reflexivity|]. split; [apply show_ok; vm_compute; reflexivity|]. exact dr_asci_run.
Qed.
Lemma mcscf_example : asked exact (dr_fs dr_mcscf_in) (lit "in.ini") 1 dr_es dr_mcscf_o /\ d_job dr_mcscf_o = JobMCSCF /\ d_rdm dr_mcscf_o = [] /\
  d_mp2 dr_mcscf_o = false /\ 1 <= d_nactive dr_mcscf_o /\ k_ci_matel (d_mcscf dr_mcscf_o) = 0%Qc /\ exact_root ex_root /\ eigensolver dr_syev /\
  least_squares no_gelss /\ exponential ex_expm /\ (0 < k_diis_nkeep (d_mcscf dr_mcscf_o))%Z /\ rotations_or_tolerance ex_root (k_orb_tol (d_mcscf dr_mcscf_o)) 1 2 0 /\
  exists out, driver ex_root dr_syev no_syev_ld no_gelss ex_expm exact ex_show dec1 5 true (dr_fs dr_mcscf_in) no_fsb (Some (lit "in.ini")) (Ok out) /\ out_E out = Q2Qc (-27 # 2).
Proof.
  split; [exact dr_mcscf_asked|]. split; [reflexivity|]. split; [reflexivity|]. split; [reflexivity|]. split; [cbn; lia|]. split; [reflexivity|]. split; [exact ex_root_exact|]. split; [exact dr_syev_solves|].
  split; [exact no_gelss_ok|]. split; [exact ex_expm_ok|]. split; [cbn; lia|]. split; [left; cbn; lia|]. exact dr_mcscf_run.
Qed.
Lemma fcidump_example : d_fci_out dr_asci_o <> [] /\ (forall p q, p < 3 -> q < 3 -> prints ex_show exact (file_T dr_es p q)) /\
  (forall p q r s, p < 3 -> q < 3 -> r < 3 -> s < 3 -> prints ex_show exact (file_V dr_es p q r s)) /\ prints ex_show exact (first_core dr_es).
Proof. split; [discriminate|]. split; [exact dr_T_prints|]. split; [exact dr_V_prints|]. apply show_ok. vm_compute. reflexivity. Qed.
Lemma missing_ex : exists c, input_file (fun n => if text_eq_dec n (lit "in.ini") then Some (ini_file ["[CI]"; "NALPHA = 1"]) else None) (lit "in.ini") c /\
  forall fname nel, ~ asks_for c fname nel.
Proof.
  exists (contents [Heading (lit "CI"); Entry 0 (lit "NALPHA") (lit "1")]). split.
  - exists (ini_file ["[CI]"; "NALPHA = 1"]), [Heading (lit "CI"); Entry 0 (lit "NALPHA") (lit "1")]. split; [reflexivity|]. split; [|split; [vm_compute; tauto|reflexivity]].
    change (lines _) with (map lit ["[CI]"; "NALPHA = 1"]). cbn [map]. sayings.
  - intros fname nel ((t & H & _) & _). vm_compute in H. discriminate H.
Qed.
