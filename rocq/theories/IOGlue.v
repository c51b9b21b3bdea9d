(** Statements of C23-C25 and their witnesses. *)
From Coq Require Import Ascii String QArith Qcanon ZArith NArith Bool Lia.
From Verif Require Import Base Bits SD Spec Ham Asci Mem MemProofs Text TextProofs IO IOSpec IOProofs FcidumpProofs FcidumpProofs2 RdmIOProofs.
Local Open Scope nat_scope.

(** exact conversion of decimal numbers *)
Definition exact (q : Q) : res Qc := Ok (Q2Qc q).
Ltac canon := match goal with
  | |- ?a = ?a => reflexivity
  | |- @eq Qc _ _ => apply Qc_is_canon; vm_compute; reflexivity
  | |- _ => progress f_equal; canon
  end.
(** lines of text *)
Definition file_of (ls : list string) : text := flat_map (fun l => lit l ++ [nl]) ls.

Lemma c23 show rnd W norb states coeffs old :
  spin_width W -> List.length states = List.length coeffs -> states <> [] ->
  (forall s, In s states -> wf W s) -> (forall v, In v coeffs -> prints show rnd v) ->
  (N.of_nat (List.length states) < 2 ^ 31)%N -> (N.of_nat norb < 2 ^ 31)%N ->
  exists file, write_wavefunction show W norb states coeffs old = Ok file /\
    read_wavefunction rnd W file = Ok (states, coeffs) /\
    List.length (lines file) = 1 + List.length states /\
    words (nth 0 (lines file) []) = [show_nat (List.length states); show_nat norb;
      show_nat (bs_count (alpha W (nth 0 states 0%N))); show_nat (bs_count (beta W (nth 0 states 0%N)))].
Proof.
  intros HW HL Ne Hs Hc H1 H2. destruct (c23_round_trip show rnd W norb states coeffs HW HL Hs Hc H1 H2 old Ne) as (file & A & B & rest & C & D).
  exists file. split; auto. split; auto. rewrite C. split; [cbn; auto|]. cbn [nth].
  rewrite header_words by auto. rewrite count_shl, count_shr; auto. apply Hs, nth_In. destruct states; [congruence|cbn; lia].
Qed.
Lemma c23_mismatch show W norb states coeffs old : List.length states <> List.length coeffs ->
  write_wavefunction show W norb states coeffs old = Err Throw.
Proof. intros H. unfold write_wavefunction. destruct (Nat.eqb_spec (List.length states) (List.length coeffs)); [congruence|]. reflexivity. Qed.
Definition show1 (v : Qc) : text := if Qc_eq_dec v (Q2Qc 1) then lit "1.0000000000000000e+00" else lit "-2.5000000000000000e-01".
Lemma c23_empty : exists show rnd old states coeffs, states <> [] /\
  write_wavefunction show 64 2 states coeffs [] = Ok old /\
  exists file, write_wavefunction show 64 2 [] [] old = Ok file /\ read_wavefunction rnd 64 file = Ok (states, coeffs).
Proof.
  exists show1, exact.
  destruct (write_wavefunction show1 64 2 [4294967297%N] [Q2Qc 1] []) as [old|] eqn:E; [|vm_compute in E; discriminate].
  exists old, [4294967297%N], [Q2Qc 1]. split; [discriminate|]. split; auto. exists old. split; auto.
  vm_compute in E. injection E as <-.
  match goal with |- ?x = _ => let y := eval vm_compute in x in assert (R : x = y) by (vm_compute; reflexivity); rewrite R end.
  canon.
Qed.

Lemma c24_read rnd file es : data_lines rnd (lines file) es ->
  read_fcidump_norb rnd file = Ok (max_index es) /\ read_fcidump_core rnd file = Ok (first_core es).
Proof. intros H. split; [apply norb_ok|apply core_ok]; auto. Qed.

Definition energies : text := file_of ["1 1 0 0 -1.5"; "1 0 0 0 -0.5"]%string.
Definition e_energies : list integral := [(1, 1, 0, 0, Q2Qc (-3 # 2)); (1, 0, 0, 0, Q2Qc (-1 # 2))].
Ltac index := split; [discriminate|]; split; [|split; [reflexivity|reflexivity]];
  apply (proj1 (forallb_forall is_digit _)); reflexivity.
Ltac dline l := let f := eval vm_compute in (fields l) in
  match f with [?a; ?b; ?c; ?d; ?x] => exists a, b, c, d, x end;
  split; [left; vm_compute; reflexivity|]; split; [index|]; split; [index|]; split; [index|]; split; [index|];
  split; [exists "."%char; split; [cbn; tauto|auto]|unfold exact; vm_compute; canon].
Lemma energies_data : data_lines exact (lines energies) e_energies.
Proof.
  unfold e_energies. change (lines energies) with [lit "1 1 0 0 -1.5"; lit "1 0 0 0 -0.5"].
  apply dl_data; [|apply dl_data; [|constructor]]; cbn [data_line].
  - dline (lit "1 1 0 0 -1.5").
  - dline (lit "1 0 0 0 -0.5").
Qed.
Lemma c24_energies : exists file es, data_lines exact (lines file) es /\
  read_fcidump_norb exact file = Ok 1 /\ read_fcidump_1body_raw exact file [0%Qc] 1 = Err UB.
Proof. exists energies, e_energies. split; [apply energies_data|]. split; vm_compute; reflexivity. Qed.

Definition three_file : text := file_of ["1 1 0 0 0.5"; "1 1 1 0 0.25"]%string.
Definition three_data : list integral := [(1, 1, 0, 0, Q2Qc (1 # 2)); (1, 1, 1, 0, Q2Qc (1 # 4))].
Lemma c24_three : data_lines exact (lines three_file) three_data /\
  read_fcidump_norb exact three_file = Ok 1 /\ read_fcidump_1body_raw exact three_file [0%Qc] 1 = Ok [Q2Qc (1 # 4)] /\
  read_fcidump_2body_raw exact three_file [0%Qc] 1 = Ok [0%Qc].
Proof.
  split; [|split; [vm_compute; reflexivity|split]].
  - unfold three_data. change (lines three_file) with [lit "1 1 0 0 0.5"; lit "1 1 1 0 0.25"].
    apply dl_data; [|apply dl_data; [|constructor]]; cbn [data_line].
    + dline (lit "1 1 0 0 0.5").
    + dline (lit "1 1 1 0 0.25").
  - match goal with |- ?x = _ => let y := eval vm_compute in x in assert (R : x = y) by (vm_compute; reflexivity); rewrite R end. canon.
  - match goal with |- ?x = _ => let y := eval vm_compute in x in assert (R : x = y) by (vm_compute; reflexivity); rewrite R end. canon.
Qed.

Lemma c23_negative rnd W file n : stoi (nth 0 (words (nth 0 (lines file) [])) []) = Ok n -> (n < 0)%Z ->
  forall r, read_wavefunction rnd W file <> Ok r.
Proof.
  intros H L r. unfold read_wavefunction. destruct (lines file) as [|l b]; cbn [nth] in H.
  - rewrite H. cbn [bind]. destruct (stoi (nth 1 (words []) [])); [|discriminate]. cbn [bind].
    destruct (stoi (nth 2 (words []) [])); [|discriminate]. cbn [bind]. destruct (stoi (nth 3 (words []) [])); [|discriminate]. cbn [bind].
    destruct (Z.ltb_spec n 0); [discriminate|lia].
  - rewrite H. cbn [bind]. destruct (stoi (nth 1 (words l) [])); [|discriminate]. cbn [bind].
    destruct (stoi (nth 2 (words l) [])); [|discriminate]. cbn [bind]. destruct (stoi (nth 3 (words l) [])); [|discriminate]. cbn [bind].
    destruct (Z.ltb_spec n 0); [discriminate|lia].
Qed.
Lemma c23_negative_ex : stoi (nth 0 (words (nth 0 (lines (file_of ["-1 2 1 1"]%string)) [])) []) = Ok (-1)%Z /\
  read_wavefunction exact 64 (file_of ["-1 2 1 1"]%string) = Err Throw.
Proof. split; vm_compute; reflexivity. Qed.

Lemma c24_header : read_fcidump_norb exact (file_of ["&FCI NORB= 2, NELEC= 2,"; "1 1 0 0 -1.5"]%string) = Err Throw.
Proof. vm_compute. reflexivity. Qed.
(** an integral written without a decimal point *)
Lemma c24_integer : read_fcidump_norb exact (file_of ["2 2 2 2 5"; "0 0 0 0 0.5"]%string) = Ok 5 /\
  exists V, read_fcidump_2body_raw exact (file_of ["2 2 2 2 5"; "0 0 0 0 0.5"]%string) (repeat 0%Qc 625) 5 = Ok V /\
  nth (pos4 5 1 1 1 1) V 0%Qc = 0%Qc /\ nth (pos4 5 1 1 1 4) V 0%Qc = Q2Qc 2.
Proof.
  split; [vm_compute; reflexivity|].
  destruct (read_fcidump_2body_raw exact (file_of ["2 2 2 2 5"; "0 0 0 0 0.5"]%string) (repeat 0%Qc 625) 5) as [V|] eqn:E;
    [|vm_compute in E; discriminate].
  exists V. split; auto. vm_compute in E. injection E as <-. split; vm_compute; reflexivity.
Qed.
Lemma c24_fortran : read_fcidump_core exact (file_of ["0 0 0 0 1.0D-01"]%string) = Ok (Q2Qc 1).
Proof. vm_compute. canon. Qed.
Lemma c24_second show norb T LDT V LDV E : write_fcidump show true norb T LDT V LDV E = Err Throw.
Proof. reflexivity. Qed.
Lemma c24_padded rnd file n T L : read_fcidump_norb rnd file = Ok n -> L <> n -> read_fcidump_1body_raw rnd file T L = Err UB.
Proof. intros H Ne. unfold read_fcidump_1body_raw. rewrite H. cbn [bind]. destruct (Nat.eqb_spec L n); [congruence|reflexivity]. Qed.

Definition enc1 (v : Qc) : list N := if Qc_eq_dec v (Q2Qc 1) then [0; 0; 0; 0; 0; 0; 240; 63]%N else repeat 0%N 8.
Definition dec1 (b : list N) : Qc := if list_eq_dec N.eq_dec b [0; 0; 0; 0; 0; 0; 240; 63]%N then Q2Qc 1 else 0%Qc.
Lemma c25_truncated : exists enc dec file, (forall v, In v [1%Qc; 0%Qc] -> List.length (enc v) = 8 /\ dec (enc v) = v) /\
  write_rdms_binary enc 1 [1%Qc] 1 [1%Qc] 1 = Ok file /\
  read_rdms_binary dec (Some (firstn 4 file)) 1 [1%Qc] 1 [1%Qc] 1 = Ok ([0%Qc], [0%Qc]).
Proof.
  exists enc1, dec1. destruct (write_rdms_binary enc1 1 [1%Qc] 1 [1%Qc] 1) as [file|] eqn:E; [|vm_compute in E; discriminate].
  exists file. split. { intros v [<-|[<-|[]]]; vm_compute; auto. }
  split; auto. vm_compute in E. injection E as <-. vm_compute. reflexivity.
Qed.
Lemma c23_ex : prints show1 exact (Q2Qc 1) /\ prints show1 exact (Q2Qc (-1 # 4)).
Proof.
  assert (S : forall t, forallb (fun c => negb (is_space c)) t = true -> forall c, In c t -> is_space c = false).
  { intros t H c Hc. rewrite forallb_forall in H. apply H in Hc. destruct (is_space c); [discriminate|auto]. }
  split; (split; [apply S; vm_compute; reflexivity|split; [|unfold exact; vm_compute; canon]]); vm_compute; tauto.
Qed.
Definition ex_file : text := file_of ["&FCI NORB=2,NELEC=2 &END"; "0.5 1 2 2 1"; "-0.25 2 1 0 0"; " 2  2 0 0   1.5"; "0.7 0 0 0 0"]%string.
Definition ex_data : list integral := [(1, 2, 2, 1, Q2Qc (1 # 2)); (2, 1, 0, 0, Q2Qc (-1 # 4)); (2, 2, 0, 0, Q2Qc (3 # 2)); (0, 0, 0, 0, Q2Qc (7 # 10))].
Ltac dline' l := let f := eval vm_compute in (fields l) in
  match f with [?x; ?a; ?b; ?c; ?d] => exists a, b, c, d, x end;
  split; [right; vm_compute; reflexivity|]; split; [index|]; split; [index|]; split; [index|]; split; [index|];
  split; [exists "."%char; split; [cbn; tauto|auto]|unfold exact; vm_compute; canon].
Lemma c24_ex : data_lines exact (lines ex_file) ex_data /\ (forall e, In e ex_data -> proper e) /\
  max_index ex_data = 2 /\ first_core ex_data = Q2Qc (7 # 10) /\
  last_value (fun e => one_at e 0 1) ex_data 0%Qc = Q2Qc (-1 # 4) /\
  last_value (fun e => two_at e 0 1 1 0) ex_data 0%Qc = Q2Qc (1 # 2).
Proof.
  split.
  - unfold ex_data. change (lines ex_file) with [lit "&FCI NORB=2,NELEC=2 &END"; lit "0.5 1 2 2 1"; lit "-0.25 2 1 0 0"; lit " 2  2 0 0   1.5"; lit "0.7 0 0 0 0"].
    apply dl_skip; [vm_compute; discriminate|].
    apply dl_data; [|apply dl_data; [|apply dl_data; [|apply dl_data; [|constructor]]]]; cbn [data_line].
    + dline' (lit "0.5 1 2 2 1").
    + dline' (lit "-0.25 2 1 0 0").
    + dline (lit " 2  2 0 0   1.5").
    + dline' (lit "0.7 0 0 0 0").
  - split; [|repeat split; reflexivity].
    intros e [<-|[<-|[<-|[<-|[]]]]]; [right; right|right; left|right; left|left; reflexivity]; cbn; lia.
Qed.
Lemma c25_ex : exists (enc : Qc -> list N) (dec : list N -> Qc), (forall v, In v [1%Qc; 0%Qc] -> List.length (enc v) = 8 /\ dec (enc v) = v).
Proof. exists enc1, dec1. intros v [<-|[<-|[]]]; vm_compute; auto. Qed.
