(** Energies of the driver's CI jobs. *)
From Coq Require Import Ascii String QArith Qcanon ZArith NArith Bool.
From Verif Require AsciContrib.
From Verif Require Import Base Bits BitsProofs SD Spec SDProofs SDProofs2 SDProofs3 SDProofs4 Sums FockSpec SlaterCondon Ham HamProofs HamProofs2 HamProofs3 PropsHamGlue Nondet Mem Text IO IOSpec IOGlue Dense DenseSpec DenseProofs DiisSpec Diis Davidson DavSpec DavProofs2 DavProofs5 DavProofs8
  Mcscf McscfSpec CasciSpec McscfGlue2 Asci AsciSpec AsciIter AsciGlue AsciRot AsciRotSpec AsciRotProofs AsciRotGlue FreezeSpec FreezeProofs2 FreezeProofs4 FreezeGlue FreezeGlue2 Ini IniSpec IniGlue Driver DriverSpec DriverProofs DriverProofs2.
Local Open Scope nat_scope.

(** the invariant of growth and refinement *)
Lemma grow_inv W st h dg dbg (P : wfn_state -> Prop) : (forall m a b, P a -> asci_iter dbg W st h dg m a (Ok b) -> P b) ->
  forall fuel s s', P s -> asci_grow fuel dbg W st h dg s (Ok s') -> P s'.
Proof.
  intros HP. induction fuel as [|f IH]; intros ((E0 & wfn) & X) s' Hs H; cbn [asci_grow] in H; destruct (length wfn <? ntdets_max st).
  - discriminate H.
  - red in H. injection H as ->. exact Hs.
  - apply nd_inv in H. destruct H as (a & Ha & H). apply HP in Ha; [|exact Hs]. destruct (length (snd (fst a)) <? _); [discriminate H|]. apply (IH a s' Ha H).
  - red in H. injection H as ->. exact Hs.
Qed.
Lemma refine_inv W st h dg dbg (P : wfn_state -> Prop) n : (forall m a b, P a -> asci_iter dbg W st h dg m a (Ok b) -> P b) ->
  forall k s s', P s -> refine_loop k dbg W st h dg n s (Ok s') -> P s'.
Proof.
  intros HP. induction k as [|k IH]; intros s s' Hs H; cbn [refine_loop] in H.
  - discriminate H.
  - apply nd_inv in H. destruct H as (a & Ha & H). apply HP in Ha; [|exact Hs].
    repeat match type of H with context [if ?x then _ else _] => destruct x end; try discriminate H; try (red in H; injection H as ->; exact Ha); apply (IH a s' Ha H).
Qed.
Lemma iter_diag W st h dg dbg m a b : asci_iter dbg W st h dg m a (Ok b) -> dg (wfn_dets b) (Ok (wfn_energy b, snd b)).
Proof.
  destruct a as ((E0 & wfn) & X). unfold asci_iter. intros H. apply nd_inv in H. destruct H as (wX & _ & H). cbv zeta in H. apply nd_inv in H. destruct H as (new & _ & H).
  apply nd_inv in H. destruct H as ((E & Y) & D & H). red in H. injection H as ->. exact D.
Qed.

Lemma drawn_ok b : drawn b (to_canonical_string 64 b).
Proof.
  split; [apply to_string_length|]. intros p Hp. rewrite to_string_nth by (auto; left; reflexivity).
  change (tb b p) with (tb b (so 64 false p)). change (tb b (p + 64 / 2)) with (tb b (so 64 true p)). rewrite (tb_str 64 false), (tb_str 64 true) by auto. cbn [str].
  destruct (tb (alpha 64 b) p), (tb (beta 64 b) p); reflexivity.
Qed.
Section STATE.
  Variables (W2 no ni na ne : nat) (T V Fi' TA' VA' : list Qc) (Ei : Qc) (fT : nat -> nat -> Qc) (fV : nat -> nat -> nat -> nat -> Qc).
  Hypothesis Hno : no <= W2 / 2.
  Hypothesis Hna : na <= 32.
  Hypothesis Hi : ni + na <= no.
  Hypothesis LT : length T = no * no.
  Hypothesis LV : length V = no * no * (no * no).
  Hypothesis ST : same2 no (at2 T no) fT.
  Hypothesis SV : same4 no (at4 V no) fV.
  Hypothesis St : symmetric2 no fT.
  Hypothesis Sv : eightfold no fV.
  Hypothesis R1 : active_hamiltonian no na ni T no V no (repeat 0%Qc (no * no)) no (repeat 0%Qc (na * na)) na (repeat 0%Qc (na * na * (na * na))) na = Ok (Fi', TA', VA').
  Hypothesis R2 : inactive_energy ni T no Fi' no = Ok Ei.

  Lemma hT : fits2 T no no no.
  Proof. split; [lia|]. intros i j A B. rewrite LT. nia. Qed.
  Lemma hV : fits4 V no no.
  Proof. split; [lia|]. intros i j k l A B C D. rewrite LV. assert (i + j * no < no * no) by nia. assert (k + l * no < no * no) by nia. nia. Qed.
  Lemma hF : fits2 (repeat 0%Qc (no * no)) no no no.
  Proof. split; [lia|]. intros i j A B. rewrite repeat_length. nia. Qed.
  Lemma hTs : symmetric2 no (at2 T no).
  Proof. intros p q A B. rewrite !ST by auto. apply St; auto. Qed.
  Lemma hVs : eightfold no (at4 V no).
  Proof. intros p q r s A B C D. rewrite !SV by auto. apply Sv; auto. Qed.
  Lemma hfacts : length TA' = na * na /\ length VA' = na * na * (na * na) /\ symmetric2 na (at2 TA' na) /\ eightfold na (at4 VA' na).
  Proof.
    assert (H32 : na <= 64 / 2) by exact Hna.
    destruct (code_facts 64 W2 no ni na T V (repeat 0%Qc (no * no)) (repeat 0%Qc (na * na)) (repeat 0%Qc (na * na * (na * na))) no no no) with (Fi' := Fi') (TA' := TA') (VA' := VA') (Ei := Ei) as (A & B & _);
      auto using hT, hV, hF, hTs, hVs; try (rewrite repeat_length; lia); try (left; reflexivity).
    destruct (code_sym 64 W2 no ni na T V (repeat 0%Qc (no * no)) (repeat 0%Qc (na * na)) (repeat 0%Qc (na * na * (na * na))) no no no) with (Fi' := Fi') (TA' := TA') (VA' := VA') (Ei := Ei) as (C & D);
      auto using hT, hV, hF, hTs, hVs; try (rewrite repeat_length; lia); try (left; reflexivity).
    rewrite repeat_length in A, B. auto.
  Qed.
  Lemma state_near thr dets Y e : valid_dets 64 na ne ne dets -> length Y = length dets -> (0 <= thr)%Qc -> dot (length dets) Y Y = 1%Qc ->
    expectation (length dets) (ci_matrix 64 (mk_ints na (at2 TA' na) (at4 VA' na)) thr dets) Y = e ->
    exists E, wave_function W2 no ni na ne fT fV dets Y E /\ (Qcabs (Ei + e - E) <= inject (length dets * length dets) * thr)%Qc.
  Proof.
    intros (ND & A) LY Ht D1 EE. assert (H32 : na <= 64 / 2) by exact Hna.
    destruct (code_facts 64 W2 no ni na T V (repeat 0%Qc (no * no)) (repeat 0%Qc (na * na)) (repeat 0%Qc (na * na * (na * na))) no no no) with (Fi' := Fi') (TA' := TA') (VA' := VA') (Ei := Ei) as (_ & _ & M2 & M4 & Q);
      auto using hT, hV, hF, hTs, hVs; try (rewrite repeat_length; lia); try (left; reflexivity).
    assert (EX : exchange_symmetric no (at4 V no)) by (intros p q r s Hp Hq Hr Hs; apply hVs; auto).
    assert (A' : forall d, In d dets -> in_space 64 na d) by (intros d Hd; apply A; auto).
    eexists. split. 1: split; [split; auto|]; split; [exact LY|]; split; [exact D1|]; split; [reflexivity|].
    - rewrite (expectation_ext _ _ (ci_matrix W2 (mk_ints no (at2 T no) (at4 V no)) 0%Qc (map (freeze 64 W2 ni) dets))).
      2:{ intros i j Hi' Hj'. apply ci_same; [intros p q Hp Hq; symmetry; apply ST; auto|intros p q r s Hp Hq Hr Hs; symmetry; apply SV; auto]. }
      apply (frozen_state_ext W2 no ni (ni + na) (ni + ne) (ni + ne) _ _ _ _ _ ST SV).
      rewrite (expectation_freeze 64 W2 no ni na) by auto. rewrite D1, Qcmult_1_r.
      apply (frozen_state_of 64 W2 no ni na (at2 T no) (at4 V no) Hno H32 Hi EX dets Y ne ne); auto.
    - rewrite (expectation_ext _ _ (ci_matrix W2 (mk_ints no (at2 T no) (at4 V no)) 0%Qc (map (freeze 64 W2 ni) dets))).
      2:{ intros i j Hi' Hj'. apply ci_same; [intros p q Hp Hq; symmetry; apply ST; auto|intros p q r s Hp Hq Hr Hs; symmetry; apply SV; auto]. }
      rewrite (expectation_freeze 64 W2 no ni na) by auto. rewrite D1, Qcmult_1_r.
      pose proof (ci_truncated 64 (mk_ints na (at2 TA' na) (at4 VA' na)) thr dets Y Ht D1) as K. rewrite EE in K.
      rewrite (expectation_ext _ (ci_matrix 64 (mk_ints na (at2 TA' na) (at4 VA' na)) 0%Qc dets) (ci_matrix 64 (mk_ints na (active_T ni (at2 T no) (at4 V no)) (active_V ni (at4 V no))) 0%Qc dets)) in K
        by (intros; apply ci_same; auto).
      rewrite Q. match goal with |- (Qcabs ?x <= _)%Qc => match type of K with (Qcabs ?y <= _)%Qc => replace x with y by ring end end. exact K.
  Qed.
  Lemma state_diag root syev thr max_m tol dets Y e : valid_dets 64 na ne ne dets -> (0 <= thr)%Qc -> exact_root root -> eigensolver syev ->
    selected_ci_diag root syev 64 (mk_ints na (at2 TA' na) (at4 VA' na)) dets thr max_m tol [] (Ok (e, Y)) ->
    exists E, wave_function W2 no ni na ne fT fV dets Y E /\ (Qcabs (Ei + e - E) <= inject (length dets * length dets) * thr)%Qc.
  Proof.
    intros (ND & A) Ht HR HS R. assert (H32 : na <= 64 / 2) by exact Hna. assert (HW : spin_width 64) by (left; reflexivity). destruct hfacts as (_ & _ & S2 & S4).
    pose proof (ci_diag root syev 64 (mk_ints na (at2 TA' na) (at4 VA' na)) thr dets ne ne max_m tol [] e Y HW H32) as L. cbn [norb T_pq V_pqrs] in L.
    destruct L as (L & _); auto. { intros p q r s Hp Hq Hr Hs. apply S4; auto. }
    pose proof (ci_diag_variational root syev 64 (mk_ints na (at2 TA' na) (at4 VA' na)) thr dets ne ne max_m tol [] e Y HW H32) as K. cbn [norb T_pq V_pqrs] in K.
    destruct K as (K1 & K2 & _); auto.
    { intros p q r s Hp Hq Hr Hs. destruct (S4 p q r s) as (E1 & E2); auto. split; auto. rewrite E2. destruct (S4 q p r s) as (E3 & _); auto.
      rewrite E3. destruct (S4 r s q p) as (_ & E4); auto. rewrite E4. apply S4; auto. }
    { intros [|j]; reflexivity. }
    apply (state_near thr dets Y e); auto. split; auto.
  Qed.
End STATE.

Lemma printed_ok p dets C l : length C = length dets ->
  mapM (fun i => do c <- at_ C i; Ok (if qlt (k_dets_thr p) (Qcabs c) then [(c, to_canonical_string 64 (nth i dets 0%N))] else [])) (seq 0 (length dets)) = Ok l ->
  printed (k_dets_thr p) dets C (concat l).
Proof.
  intros LC H. unfold printed.
  assert (G : forall k (l : list (list (Qc * text))), k <= length dets ->
    mapM (fun i => do c <- at_ C i; Ok (if qlt (k_dets_thr p) (Qcabs c) then [(c, to_canonical_string 64 (nth i dets 0%N))] else [])) (seq (length dets - k) k) = Ok l ->
    Forall2 (fun yb ct => fst ct = fst yb /\ drawn (snd yb) (snd ct)) (filter (fun yb => qlt (k_dets_thr p) (Qcabs (fst yb))) (skipn (length dets - k) (combine C dets))) (concat l)).
  { clear l H. induction k as [|k IH]; intros l Hk H.
    - cbn [seq mapM] in H. injection H as <-. rewrite Nat.sub_0_r, skipn_all2 by (rewrite combine_length; lia). constructor.
    - cbn [seq mapM] in H. apply bind_ok in H. destruct H as (x & Hx & H). apply bind_ok in H. destruct H as (r & Hr & H). injection H as <-.
      apply bind_ok in Hx. destruct Hx as (c & Hc & Hx). injection Hx as <-.
      replace (S (length dets - S k)) with (length dets - k) in Hr by lia. apply IH in Hr; [|lia].
      set (i := length dets - S k) in *. assert (Hi : i < length (combine C dets)) by (rewrite combine_length; lia).
      assert (SK : skipn i (combine C dets) = (nth i C 0%Qc, nth i dets 0%N) :: skipn (length dets - k) (combine C dets)).
      { replace (length dets - k) with (S i) by lia. rewrite <- combine_nth by auto. clear -Hi. clearbody i. revert i Hi. induction (combine C dets) as [|a m IHm]; intros [|i] Hi; cbn [length skipn nth] in *; try lia; auto. apply IHm. lia. }
      rewrite SK. cbn [filter fst snd]. assert (Hc' : c = nth i C 0%Qc). { unfold at_ in Hc. destruct (nth_error C i) eqn:E; [|discriminate Hc]. injection Hc as <-. symmetry. apply nth_error_nth; auto. }
      subst c. destruct (qlt _ _); cbn [concat app]; auto. constructor; auto. cbn [fst snd]. split; auto. apply drawn_ok. }
  specialize (G (length dets) l (Nat.le_refl _)). rewrite Nat.sub_diag in G. apply G; auto.
Qed.

(** the energy of a wave function from a file *)
Lemma foldM_sum {A} (l : list A) (f : A -> res Qc) (g : A -> Qc) x : (forall a, In a l -> f a = Ok (g a)) ->
  foldM l (fun s a => do y <- f a; Ok (s + y)%Qc) x = Ok (x + sum l g)%Qc.
Proof.
  revert x. induction l as [|a l IH]; intros x H; cbn [foldM sum]; [rewrite Qcplus_0_r; reflexivity|]. rewrite H by (left; auto). cbn [bind].
  rewrite IH by (intros; apply H; right; auto). f_equal. ring.
Qed.
Lemma foldM_ext_in {A} (l : list A) (f g : Qc -> A -> res Qc) x : (forall s a, In a l -> f s a = g s a) -> foldM l f x = foldM l g x.
Proof.
  revert x. induction l as [|a l IH]; intros x H; cbn [foldM]; auto. rewrite H by (left; auto). destruct (g x a); cbn [bind]; auto. apply IH. intros; apply H; right; auto.
Qed.
Lemma at_nth {A} (l : list A) i d : i < length l -> at_ l i = Ok (nth i l d).
Proof. intros H. unfold at_. rewrite (nth_error_nth' l d H). reflexivity. Qed.
Lemma file_energy_ok n TA VA dets C ne : n <= 32 -> (forall p q r s, p < n -> q < n -> r < n -> s < n -> at4 VA n p q r s = at4 VA n r s p q) ->
  valid_dets 64 n ne ne dets -> length C = length dets ->
  file_energy (mk_ints n (at2 TA n) (at4 VA n)) dets C = Ok (expectation (length dets) (ci_matrix 64 (mk_ints n (at2 TA n) (at4 VA n)) 0%Qc dets) C).
Proof.
  intros Hn Sv (ND & A) LC. set (h := mk_ints n (at2 TA n) (at4 VA n)). unfold file_energy, expectation, Sigma. 
  erewrite foldM_ext_in.
  - erewrite (foldM_sum (seq 0 (length dets)) (fun i => Ok (nth i C 0 * matvec (length dets) (ci_matrix 64 h 0%Qc dets) C i)%Qc)); [|intros a Ha; reflexivity]. f_equal. ring.
  - intros s i Hi. apply in_seq in Hi. cbn beta. rewrite (at_nth dets i 0%N) by lia. cbn [bind].
    erewrite foldM_ext_in.
    + erewrite (foldM_sum (seq 0 (length dets)) (fun j => Ok (ci_matrix 64 h 0%Qc dets i j * nth j C 0)%Qc)); [|intros a Ha; reflexivity]. cbn [bind].
      rewrite (at_nth C i 0%Qc) by lia. cbn [bind]. unfold matvec, Sigma. f_equal. ring.
    + intros t j Hj. apply in_seq in Hj. cbn beta. rewrite (at_nth dets j 0%N) by lia. cbn [bind]. rewrite ci_zero.
      destruct (A (nth i dets 0%N)) as (P1 & P2 & P3); [apply nth_In; lia|]. destruct (A (nth j dets 0%N)) as (Q1 & Q2 & Q3); [apply nth_In; lia|].
      rewrite (c13 64 h _ _ ne ne) by (auto; left; reflexivity). cbn [bind]. rewrite (at_nth C j 0%Qc) by lia. cbn [bind]. reflexivity.
Qed.

Lemma qmul_nonneg a b : (0 <= a)%Qc -> (0 <= b)%Qc -> (0 <= a * b)%Qc.
Proof. intros A B. apply (Qcmult_le_compat_r _ _ b A) in B. rewrite Qcmult_0_l in B. exact B. Qed.
Lemma hf_valid n ne D : ne <= n -> n <= 32 -> wf 64 D -> (forall p, p < 64 / 2 -> (tb D p = true <-> p < ne)) -> (forall p, p < 64 / 2 -> (tb D (p + 64 / 2) = true <-> p < ne)) ->
  in_space 64 n D /\ size_is (alpha 64 D) ne /\ size_is (beta 64 D) ne.
Proof.
  intros Hn H32 HD A B. change (64 / 2) with 32 in A, B. 
  assert (TA : forall p, tb (alpha 64 D) p = true <-> p < ne).
  { intros p. change (alpha 64 D) with (str 64 false D). rewrite AsciContrib.tb_str_all. cbn [orb so]. change (64 / 2) with 32. destruct (Nat.ltb_spec p 32) as [L|L]; cbn [andb]; [apply A; auto|]. split; [discriminate|lia]. }
  assert (TB : forall p, tb (beta 64 D) p = true <-> p < ne).
  { intros p. change (beta 64 D) with (str 64 true D). rewrite AsciContrib.tb_str_all. cbn [orb so andb]. change (64 / 2) with 32. destruct (Nat.ltb_spec p 32) as [L|L]; [apply B; auto|].
    rewrite HD by lia. split; [discriminate|lia]. }
  assert (G : forall x, (forall p, tb x p = true <-> p < ne) -> wf n x /\ size_is x ne).
  { intros x H. split.
    - intros i Hi. destruct (tb x i) eqn:E; auto. apply H in E. lia.
    - exists (seq 0 ne). split; [apply seq_NoDup|]. split; [|apply seq_length]. intros i. rewrite in_seq, H. lia. }
  destruct (G _ TA), (G _ TB). split; [split; auto|]. auto.
Qed.
Lemma mapM_length {A B} (f : A -> res B) l r : mapM f l = Ok r -> length r = length l.
Proof.
  revert r. induction l as [|a l IH]; intros r H; cbn [mapM] in H; [injection H as <-; reflexivity|]. apply bind_ok in H. destruct H as (x & _ & H). apply bind_ok in H. destruct H as (y & Hy & H). injection H as <-.
  cbn [length]. f_equal. auto.
Qed.
Lemma read_lengths rnd W f ds C : read_wavefunction rnd W f = Ok (ds, C) -> length C = length ds.
Proof.
  unfold read_wavefunction. destruct (lines f) as [|l b]; intros H; repeat (apply bind_ok in H; destruct H as (? & _ & H)); (destruct (_ <? _)%Z; [discriminate H|]);
    apply bind_ok in H; destruct H as (l' & _ & H); injection H as <- <-; rewrite !map_length; reflexivity.
Qed.

Section JOBS.
  Variables (root : Qc -> Qc) (syev : nat -> list Qc -> res (list Qc * list Qc)) (syev_ld : nat -> list Qc -> nat -> res (list Qc * list Qc))
            (gelss : nat -> list Qc -> list Qc -> res (list Qc)) (expm : nat -> list Qc -> res (list Qc))
            (rnd : Q -> res Qc) (show : Qc -> text) (dec : list N -> Qc).
  Variables (dbg : bool) (fs : text -> option text) (fsb : text -> option (list N)).
  Variables (name fname : text) (c : content) (nel : Z) (es : list integral) (o : driver_options).
  Hypothesis Hin : input_file fs name c.
  Hypothesis Hask : asks_for c fname nel.
  Hypothesis Hfci : fcidump_file rnd fs fname es.
  Hypothesis Hconf : configured rnd c (max_index es) o.
  Local Notation run fuel := (driver root syev syev_ld gelss expm rnd show dec fuel dbg fs fsb (Some name)).
  Local Notation no := (max_index es).
  Local Notation ni := (d_ninactive o).
  Local Notation na := (d_nactive o).
  Local Notation ne := (Z.to_nat nel).
  Hypothesis Hjob : d_job o = JobCI.
  Hypothesis HV : d_mp2 o = true -> orthonormal_vectors syev_ld.
  Hypothesis Hel : ne <= na.
  Hypothesis Hthr : (0 <= k_ci_matel (d_mcscf o))%Qc.
  Hypothesis HR : exact_root root.
  Hypothesis HS : eigensolver syev.

  Lemma sizes : ni + na <= no /\ na <= 32.
  Proof. destruct Hconf as (_ & _ & _ & _ & A & _ & B & _). lia. Qed.
  Lemma orbitals_used T V T' V' : length T = no * no -> length V = no * no * (no * no) -> same2 no (at2 T no) (file_T es) -> same4 no (at4 V no) (file_V es) ->
    driver_orbitals syev_ld (d_mp2 o) no (ni + ne) T V = Ok (T', V') ->
    length T' = no * no /\ length V' = no * no * (no * no) /\ exists U gT gV, rotated no U (file_T es) (file_V es) gT gV /\ same2 no (at2 T' no) gT /\ same4 no (at4 V' no) gV /\
      (d_mp2 o = false -> gT = file_T es /\ gV = file_V es).
  Proof.
    intros LT LV ST SV H. destruct (file_sym es no) as (St & Sv). destruct (d_mp2 o) eqn:E.
    - assert (N0 : 0 < no) by (clear Hel; destruct Hconf as (_ & _ & _ & _ & _ & A & _); lia).
      exact (orbitals_ok syev_ld true no (ni + ne) T V T' V' (file_T es) (file_V es) (HV eq_refl) N0 LT LV ST SV St Sv H).
    - unfold driver_orbitals in H. injection H as <- <-. split; auto. split; auto. exists identity, (file_T es), (file_V es). split; [apply rotated_id|]. auto.
  Qed.
  Lemma cas_run : d_exp o = ExpCAS -> exists f0, forall W2 fuel out, no <= W2 / 2 -> f0 <= fuel -> run fuel (Ok out) ->
    exists U gT gV dets Y E, rotated no U (file_T es) (file_V es) gT gV /\ (d_mp2 o = false -> gT = file_T es /\ gV = file_V es) /\
      whole_space 64 na ne ne dets /\ wave_function W2 no ni na ne gT gV dets Y E /\
      (Qcabs (out_E out - (first_core es + E)) <= inject ((binom na ne * binom na ne) * (binom na ne * binom na ne)) * k_ci_matel (d_mcscf o))%Qc /\
      (if k_dets (d_print o) then printed (k_dets_thr (d_print o)) dets Y (out_dets out) else out_dets out = []) /\ out_wfn out = None.
  Proof.
    intros Hexp. destruct sizes as (Hi & H32). assert (HW : spin_width 64) by (left; reflexivity).
    destruct (hilbert_spec 64 na ne ne eq_refl H32 Hel Hel) as (dets & (f0 & Hf) & ND & LD & I). exists f0. intros W2 fuel out H2 Hfu H.
    destruct (run_parts root syev syev_ld gelss expm rnd show dec dbg fs fsb name fname c nel es o Hin Hask Hfci Hconf) as (T & V & LT & LV & ST & SV & P).
    destruct (P fuel out H) as (T' & V' & Fi & TA & VA & Ei & w & OB & AH & IE & J & OW & _). clear P H.
    destruct (file_sym es no) as (St0 & Sv0). destruct (orbitals_used T V T' V' LT LV ST SV OB) as (LT' & LV' & U & gT & gV & RO & ST' & SV' & GF).
    clear LT LV ST SV OB T V. destruct (rotated_sym no U (file_T es) (file_V es) gT gV St0 Sv0 RO) as (St & Sv). rename T' into T. rename V' into V.
    unfold job_part in J. rewrite Hjob, Hexp in J. apply nd_inv in J. destruct J as ((E0 & l) & J & J'). red in J'. cbn [fst snd] in J'. injection J' as QE QD QW.
    unfold driver_cas in J. apply nd_inv in J. destruct J as ((((e & B1) & B2) & Y) & JC & J). apply DavProofs2.det_inv in J. destruct J as (l' & JD & J). red in J. injection J as QE0 QL.
    destruct (hfacts W2 no ni na T V Fi TA VA Ei gT gV) as (L1 & L2 & S2 & S4); auto.
    unfold compute_casci_rdms in JC. apply DavProofs2.det_inv in JC. destruct JC as (h & Jh & JC). rewrite span_held in Jh by (split; cbn [fst snd]; lia). injection Jh as <-.
    rewrite (Hf fuel Hfu) in JC. apply DavProofs2.det_inv in JC. destruct JC as (ds & Jd & JC). injection Jd as <-.
    apply nd_inv in JC. destruct JC as ((e' & Y') & JS & JC). apply DavProofs2.det_inv in JC. destruct JC as (D & _ & JC). red in JC. injection JC as QQ1 _ _ QQ2. subst e' Y'.
    assert (VD : valid_dets 64 na ne ne dets). { split; auto. intros d Hd. apply I; auto. }
    destruct (state_diag W2 no ni na ne T V Fi TA VA Ei gT gV) with (root := root) (syev := syev) (thr := k_ci_matel (d_mcscf o)) (dets := dets) (Y := Y) (e := e) (max_m := Z.to_nat (k_ci_sub (d_mcscf o))) (tol := k_ci_tol (d_mcscf o)) as (E & WF & BD); auto.
    exists U, gT, gV, dets, Y, E. split; [exact RO|]. split; [exact GF|]. split; [split; auto|]. split; auto. split.
    { rewrite <- LD. rewrite QE, QE0. match goal with |- (Qcabs ?x <= _)%Qc => replace x with (Ei + e - E)%Qc by ring end. exact BD. }
    split; [|rewrite OW; auto]. rewrite QD, QL. unfold driver_determinants in JD. destruct (k_dets (d_print o)); [|injection JD as <-; reflexivity].
    rewrite (Hf fuel Hfu) in JD. cbn [bind] in JD. apply bind_ok in JD. destruct JD as (ll & JD & Q). injection Q as <-. apply printed_ok; auto. apply WF.
  Qed.
  Lemma asci_run n0 : d_exp o = ExpASCI -> (dbg = true -> ne < na) -> k_rot (d_asci o) = false -> starting_point rnd fs (d_asci o) na ne n0 ->
    forall W2 fuel out, no <= W2 / 2 -> run fuel (Ok out) ->
    exists U gT gV dets Y E, rotated no U (file_T es) (file_V es) gT gV /\ (d_mp2 o = false -> gT = file_T es /\ gV = file_V es) /\
      wave_function W2 no ni na ne gT gV dets Y E /\
      (Qcabs (out_E out - (first_core es + E)) <= inject (length dets * length dets) * k_ci_matel (d_mcscf o))%Qc /\
      ((2 <= k_grow (d_asci o))%Z -> length dets = Nat.max n0 (Z.to_nat (k_ntdets_max (d_asci o)))) /\
      out_dets out = [] /\ (k_wfn_out (d_asci o) = [] -> out_wfn out = None) /\
      (k_wfn_out (d_asci o) <> [] -> (forall v, In v Y -> prints show rnd v) -> (N.of_nat (length dets) < 2 ^ 31)%N ->
         exists f, out_wfn out = Some f /\ read_wavefunction rnd 64 f = Ok (dets, Y)).
  Proof.
    intros Hexp Hdbg Hrot Hst. destruct sizes as (Hi & H32). assert (HW : spin_width 64) by (left; reflexivity).
    intros W2 fuel out H2 H.
    destruct (run_parts root syev syev_ld gelss expm rnd show dec dbg fs fsb name fname c nel es o Hin Hask Hfci Hconf) as (T & V & LT & LV & ST & SV & P).
    destruct (P fuel out H) as (T' & V' & Fi & TA & VA & Ei & w & OB & AH & IE & J & OW & _). clear P H.
    destruct (file_sym es no) as (St0 & Sv0). destruct (orbitals_used T V T' V' LT LV ST SV OB) as (LT' & LV' & U & gT & gV & RO & ST' & SV' & GF).
    clear LT LV ST SV OB T V. destruct (rotated_sym no U (file_T es) (file_V es) gT gV St0 Sv0 RO) as (St & Sv). rename T' into T. rename V' into V.
    unfold job_part in J. rewrite Hjob, Hexp in J. apply nd_inv in J. destruct J as ((E0 & l) & J & J'). red in J'. cbn [fst snd] in J'. injection J' as QE QD QW.
    destruct (hfacts W2 no ni na T V Fi TA VA Ei gT gV) as (L1 & L2 & S2 & S4); auto.
    unfold driver_asci_run in J. cbv zeta in J. apply DavProofs2.det_inv in J. destruct J as (h & Jh & J). rewrite span_held in Jh by (split; cbn [fst snd]; lia). injection Jh as <-.
    apply DavProofs2.det_inv in J. destruct J as (s0 & Jg & J). apply nd_inv in J. destruct J as ((s1 & TV) & JG & J).
    apply (c61_off syev 64 na dbg (asci_settings (d_asci o)) (mk_rot (k_rot (d_asci o)) (Z.to_nat (k_rot_start (d_asci o)))) (ci_diag_of root syev (d_mcscf o)) Hrot) in JG; [|cbn [fst snd]; lia..].
    destruct JG as ([s1'|er] & JG & QG); [|discriminate QG]. injection QG as -> ->. cbn [fst snd] in J.
    apply DavProofs2.det_inv in J. destruct J as (h & Jh & J). rewrite span_held in Jh by (split; cbn [fst snd]; lia). injection Jh as <-.
    apply nd_inv in J. destruct J as (((e & dets) & Y) & JR & J). apply DavProofs2.det_inv in J. destruct J as (wf' & JW & J). red in J. injection J as QE0 QL. subst wf'.
    set (h := held na (TA, VA)) in *. 
    set (PP := fun s : wfn_state => valid_dets 64 na ne ne (wfn_dets s) /\ exists thr, (thr = 0%Qc \/ thr = k_ci_matel (d_mcscf o)) /\
      exists E, wave_function W2 no ni na ne gT gV (wfn_dets s) (snd s) E /\ (Qcabs (Ei + wfn_energy s - E) <= inject (length (wfn_dets s) * length (wfn_dets s)) * thr)%Qc).
    assert (Vs : forall p q r s, p < norb h -> q < norb h -> r < norb h -> s < norb h -> V_pqrs h p q r s = V_pqrs h r s p q) by (intros p q r s Hp Hq Hr Hs; apply S4; auto).
    assert (Step : forall m a b, PP a -> asci_iter dbg 64 (asci_settings (d_asci o)) h (ci_diag_of root syev (d_mcscf o) h) m a (Ok b) -> PP b).
    { intros m a b (VA1 & _) Hab. assert (VB : valid_dets 64 na ne ne (wfn_dets b)).
      { destruct (c53 64 h dbg (asci_settings (d_asci o)) ne ne (ci_diag_of root syev (d_mcscf o) h) a HW H32 Vs) as (K & _); [intros Hd; specialize (Hdbg Hd); split; exact Hdbg|exact VA1|]. apply (K m b Hab). }
      split; auto. exists (k_ci_matel (d_mcscf o)). split; [right; reflexivity|]. apply iter_diag in Hab.
      eapply (state_diag W2 no ni na ne T V Fi TA VA Ei gT gV); eauto. }
    assert (Start : PP s0 /\ wfn_size s0 = n0 /\ 1 <= n0).
    { unfold driver_guess in Jg. destruct Hst as [(Hw & ->)|(f & ds & C & Hw & HE & Hf & Hr & Hne & Hv & HD & ->)].
      - rewrite Hw in Jg. destruct (canonical_hf_ok 64 ne ne eq_refl) as (D & HD & WD & BA & BB); [cbn; lia..|]. rewrite HD in Jg. cbn [bind] in Jg.
        destruct (hf_valid na ne D Hel H32 WD BA BB) as (V1 & V2 & V3). rewrite (c13 64 h D D ne ne HW H32 Vs V1 V1 V2 V2 V3 V3) in Jg. cbn [bind] in Jg. injection Jg as <-.
        split; [|split; [reflexivity|lia]].
        assert (VD : valid_dets 64 na ne ne [D]). { split; [constructor; [intros []|constructor]|]. intros b [<-|[]]; auto. }
        split; [exact VD|]. exists 0%Qc. split; auto. cbn [wfn_dets wfn_energy fst snd].
        apply (state_near W2 no ni na ne T V Fi TA VA Ei gT gV); auto; [apply Qcle_refl|].
        unfold expectation, matvec, Sigma. cbn [length seq sum nth]. rewrite ci_zero. cbn [nth]. fold h. unfold h, held. cbn [norb T_pq V_pqrs fst snd]. ring.
      - destruct (k_wfn_in (d_asci o)) as [|ch rest] eqn:EW; [contradiction|]. unfold stream in Jg. rewrite Hf, Hr in Jg. cbn [bind] in Jg. rewrite HE in Jg.
        assert (LC : length C = length ds) by (eapply read_lengths; eauto).
        unfold h, held in Jg. cbn [fst snd] in Jg. rewrite (file_energy_ok na TA VA ds C ne) in Jg; auto. cbn [bind] in Jg. injection Jg as <-. split; [|split; [reflexivity|destruct ds; [contradiction|cbn; lia]]].
        split; auto. exists 0%Qc. split; auto. eapply (state_near W2 no ni na ne T V Fi TA VA Ei gT gV); eauto. apply Qcle_refl. }
    destruct Start as (P0 & Z0 & N0).
    pose proof (grow_inv 64 (asci_settings (d_asci o)) h (ci_diag_of root syev (d_mcscf o) h) dbg PP Step fuel s0 s1' P0 JG) as P1.
    assert (P2 : PP (e, dets, Y) /\ length dets = wfn_size s1').
    { destruct (k_refine (d_asci o) =? 0)%Z; [assert (QQ : s1' = (e, dets, Y)) by (red in JR; congruence); rewrite QQ in *; split; [exact P1|reflexivity]|]. split; [apply (refine_inv 64 (asci_settings (d_asci o)) h (ci_diag_of root syev (d_mcscf o) h) dbg PP _ Step _ _ _ P1 JR)|].
      destruct (c36_refine 64 h dbg (asci_settings (d_asci o)) (ci_diag_of root syev (d_mcscf o) h) s1' _ JR) as (Q & _). exact Q. }
    destruct P2 as (((ND & VD) & thr & HT & E & WF & BD) & Q2). cbn [wfn_dets wfn_energy fst snd] in *.
    exists U, gT, gV, dets, Y, E. split; [exact RO|]. split; [exact GF|]. split; auto. split.
    { rewrite QE, QE0. match goal with |- (Qcabs ?x <= _)%Qc => replace x with (Ei + e - E)%Qc by ring end. destruct HT as [-> | ->]; [|exact BD].
      eapply Qcle_trans; [exact BD|]. rewrite Qcmult_0_r. apply qmul_nonneg; [apply inject_nonneg|exact Hthr]. }
    split. { intros Hg. rewrite Q2. destruct (Nat.le_gt_cases n0 (Z.to_nat (k_ntdets_max (d_asci o)))) as [L|L].
      - rewrite Nat.max_r by lia. destruct (c36_grow fuel 64 h dbg (asci_settings (d_asci o)) (ci_diag_of root syev (d_mcscf o) h) s0) with (a := s1') as (Q & _); auto; cbn [ntdets_max grow_factor asci_settings]; try lia.
        assert (RG : (0 <= k_ntdets_max (d_asci o) < 2 ^ 64)%Z). { destruct Hconf as (_ & _ & _ & _ & _ & _ & _ & _ & _ & _ & (G & _) & _). eapply (chosen_size_range c); [|exact G]. split; [discriminate|reflexivity]. }
        lia.
      - rewrite Nat.max_l by lia. destruct s0 as ((a0 & b0) & c0). unfold wfn_size in Z0. cbn [fst snd] in Z0.
        assert (LL : (length b0 <? ntdets_max (asci_settings (d_asci o))) = false) by (apply Nat.ltb_ge; cbn [ntdets_max asci_settings]; lia).
        destruct fuel; cbn [asci_grow] in JG; rewrite LL in JG; red in JG; injection JG as ->; exact Z0. }
    split; [exact QD|]. split; intros Hw.
    - rewrite Hw in JW. injection JW as <-. rewrite OW. exact QW.
    - intros PV LN. destruct (k_wfn_out (d_asci o)) as [|a0 l0]; [contradiction|]. apply bind_ok in JW. destruct JW as (f & JW & Q). injection Q as <-. exists f. rewrite OW. split; auto.
      destruct (c23 show rnd 64 na dets Y (stream fs (a0 :: l0)) HW) as (f' & W1 & W2' & _); auto. 
      
      { symmetry; apply WF. }
      { intros ->. destruct WF as (_ & _ & D1 & _). unfold dot, Sigma in D1. cbn [length seq sum] in D1. discriminate D1. }
      { intros b Hb. apply (in_space_wf 64 na); auto. apply VD; auto. }
      { lia. }
      rewrite W1 in JW. injection JW as <-. exact W2'.
  Qed.
End JOBS.
