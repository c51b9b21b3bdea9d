(** The whole optimisation. *)
From Coq Require Import QArith Qcanon Bool.
From Verif Require Import Base SD Sums Ham Nondet Asci AsciSort Mem MemProofs Dense DenseSpec DenseProofs FockMatProofs RotProofs HessProofs LinRespProofs ExpandProofs
  Diis DiisSpec DiisProofs DiisProofs2 Davidson DavProofs DavProofs2 DavProofs4 DenseGlue Mcscf McscfSpec McscfProofs McscfProofs2 McscfProofs3.
Local Open Scope nat_scope.

(** ** packed contractions *)
Lemma dot_packed2 n A B : dot (n * n) A B = Sigma n (fun i => Sigma n (fun j => at2 A n i j * at2 B n i j))%Qc.
Proof. unfold dot. rewrite Sigma_mul, Sigma_swap. reflexivity. Qed.
Lemma dot_packed4 n A B : dot (n * n * (n * n)) A B =
  Sigma n (fun i => Sigma n (fun j => Sigma n (fun k => Sigma n (fun l => at4 A n i j k l * at4 B n i j k l))))%Qc.
Proof.
  unfold dot. rewrite Sigma_mul.
  rewrite (Sigma_ext (n * n) _ (fun x => Sigma n (fun i => Sigma n (fun j => nth (i + j * n + x * (n * n)) A 0 * nth (i + j * n + x * (n * n)) B 0)))%Qc).
  2:{ intros x _. rewrite Sigma_mul, Sigma_swap. reflexivity. }
  rewrite Sigma_swap. apply Sigma_ext. intros i _. rewrite Sigma_swap. apply Sigma_ext. intros j _. rewrite Sigma_mul, Sigma_swap.
  apply Sigma_ext. intros k _. apply Sigma_ext. intros l _. unfold at4.
  replace (i + j * n + (k + l * n) * (n * n)) with (i + j * n + k * n * n + l * n * n * n) by ring. reflexivity.
Qed.
Lemma zero_fill_ok n A : n <= length A -> exists A', zero_fill n A = Ok A' /\ length A' = length A /\ zeros n A'.
Proof.
  intros H. unfold zero_fill.
  assert (G : forall n k A, k + n <= length A -> exists A', put_all A k (repeat 0%Qc n) = Ok A' /\ length A' = length A /\
      (forall x, k <= x < k + n -> nth x A' 0%Qc = 0%Qc) /\ forall x, x < k -> nth x A' 0%Qc = nth x A 0%Qc).
  { clear. induction n as [|n IH]; intros k A H; cbn [repeat put_all].
    - exists A. split; auto. split; auto. split; auto. intros; lia.
    - rewrite put_ok by lia. cbn [bind]. destruct (IH (S k) (upd A k 0%Qc)) as (A' & E & L & R1 & R2); [rewrite upd_length; lia|].
      rewrite upd_length in L. exists A'. split; auto. split; auto. split.
      + intros x Hx. destruct (Nat.eq_dec x k) as [->|Ne]; [rewrite R2 by lia; rewrite upd_nth by lia; rewrite Nat.eqb_refl; reflexivity|]. apply R1. lia.
      + intros x Hx. rewrite R2 by lia. rewrite upd_nth by lia. destruct (Nat.eqb_spec x k); [lia|reflexivity]. }
  destruct (G n 0 A) as (A' & E & L & R & _); [lia|]. exists A'. split; auto. split; auto. split; [lia|]. intros x Hx. apply R. lia.
Qed.

Lemma rot_sz_eq ni na nv : nv * (ni + na) + na * ni = rot_size ni na nv.
Proof. unfold rot_size. nia. Qed.

Section RUN.
  Variables (root : Qc -> Qc) (gelss : nat -> list Qc -> list Qc -> res (list Qc)) (expm : nat -> list Qc -> res (list Qc)).
  Variables (rdms : rdm_functor) (st : settings) (nalpha nbeta no ni na nv : nat) (E_core : Qc) (T : list Qc) (LDT : nat) (V : list Qc) (L1 L2 : nat).
  Hypothesis Hno : no = ni + na + nv.
  Hypothesis Hna : 0 < na.
  Hypothesis HT : fits2 T LDT no no.
  Hypothesis HV : fits4 V no no.
  Hypothesis ST : symmetric2 no (at2 T LDT).
  Hypothesis SV : eightfold no (at4 V no).
  Hypothesis HL1 : na * na <= L1.
  Hypothesis HL2 : na * na * (na * na) <= L2.
  Hypothesis Hsized : sized gelss.
  Hypothesis Hexp : exponential expm.
  Hypothesis Hkeep : enable_diis st = true -> 0 < diis_nkeep st.
  Variables (F : err -> Prop) (PX : list Qc -> Prop) (Post : list Qc -> list Qc -> Qc -> list Qc -> list Qc -> Prop).
  Hypothesis HFn : F NonFinite.
  Hypothesis HFg : forall k B b e, gelss k B b = Err e -> F e.
  Hypothesis HFe : forall n M e, expm n M = Err e -> F e.
  Hypothesis HX0 : PX [].
  Hypothesis Hrdms : forall TA VA Z1 Z2 X, length TA = na * na -> length VA = na * na * (na * na) -> symmetric2 na (at2 TA na) -> eightfold na (at4 VA na) ->
    zeros (na * na) Z1 -> zeros (na * na * (na * na)) Z2 -> length Z1 = L1 -> length Z2 = L2 -> PX X ->
    outcome (fun r => let '(e, B1, B2, X') := r in length B1 = L1 /\ length B2 = L2 /\ PX X' /\ Post TA VA e B1 B2) F (rdms na nalpha nbeta TA VA Z1 Z2 X).
  Local Notation sz := (rot_size ni na nv).
  Local Notation Tf := (at2 T LDT).
  Local Notation Vf := (at4 V no).

  Lemma no_pos : 0 < no.
  Proof. lia. Qed.
  (** ** Fock matrices and gradient *)
  Lemma gradient_good t v Vl LV A1 A2 Fi Fa Q OG : fits4 Vl LV no -> same4 no (at4 Vl LV) v -> na * na <= length A1 -> na * na * (na * na) <= length A2 ->
    length Fi = no * no -> same2 no (at2 Fi no) (inactive_fock ni t v) -> length Fa = no * no -> length Q = na * no -> length OG = sz ->
    exists Fa' Q' F' OG', gradient no ni na nv na na Vl LV A1 A2 Fi Fa Q (repeat 0%Qc (no * no)) OG = Ok (Fa', Q', F', OG') /\
      length Fa' = no * no /\ length Q' = na * no /\ length F' = no * no /\ length OG' = sz /\
      same2 no (at2 Fa' no) (active_fock ni na v (at2 A1 na)) /\
      (forall r s, r < ni + na -> s < no -> at2 F' no r s = generalized_fock ni na t v (at2 A1 na) (at4 A2 na) r s) /\
      (forall p q, rotates ni na nv p q -> nth (rot_index ni na nv p q) OG' 0%Qc = orbital_gradient ni na t v (at2 A1 na) (at4 A2 na) p q) /\
      dot sz OG' OG' = gradient_norm2 ni na nv t v (at2 A1 na) (at4 A2 na).
  Proof.
    intros FV SVl LA1 LA2 LFi SFi LFa LQ LOG. pose proof no_pos as Hn0. unfold gradient.
    destruct (active_fock_ok no ni na Vl LV A1 na Fa no) as (Fa' & E1 & G1); auto using fits2_packed, fits2_packed_ge; try lia. rewrite E1. cbn [bind].
    destruct (aux_q_ok na no ni Vl LV A2 na Q na) as (Q' & E2 & G2); auto using fits4_packed_ge, fits2_packed'; try lia. rewrite E2. cbn [bind].
    assert (LFa' : length Fa' = no * no) by (rewrite (proj1 G1); auto). assert (LQ' : length Q' = na * no) by (rewrite (proj1 G2); auto).
    destruct (generalized_ok no ni na Fi no Fa' no A1 na Q' na (repeat 0%Qc (no * no)) no) as (F' & E3 & G3); auto using fits2_packed, fits2_packed_ge, fits2_packed'; try lia.
    { apply (fits2_le _ _ no no); auto; try lia. apply fits2_repeat. }
    rewrite E3. cbn [bind].
    assert (LF' : length F' = no * no) by (rewrite (proj1 G3); apply repeat_length).
    destruct (pack_gradient_ok ni na nv F' no OG) as (OG' & E4 & L4 & R4 & _); [lia|rewrite <- Hno; apply fits2_packed; auto|]. rewrite E4. cbn [bind].
    assert (SFa : same2 no (at2 Fa' no) (active_fock ni na v (at2 A1 na))).
    { intros p q Hp Hq. rewrite (filled2_at _ _ _ _ _ _ p q G1) by auto. unfold active_fock. apply Sigma_ext. intros a Ha. apply Sigma_ext. intros b Hb. rewrite !SVl by lia. reflexivity. }
    assert (SQ : forall a p, a < na -> p < no -> at2 Q' na a p = q_matrix ni na v (at4 A2 na) a p).
    { intros a p Ha Hp. rewrite (filled2_at _ _ _ _ _ _ a p G2) by auto. unfold q_matrix. f_equal. apply Sigma_ext. intros w Hw. apply Sigma_ext. intros x Hx. apply Sigma_ext. intros y Hy.
      rewrite SVl by lia. reflexivity. }
    assert (SF : forall r s, r < ni + na -> s < no -> at2 F' no r s = generalized_fock ni na t v (at2 A1 na) (at4 A2 na) r s).
    { intros r s Hr Hs. rewrite (filled2_at _ _ _ _ _ _ r s G3) by auto. unfold gen_rows, generalized_fock. destruct (Nat.ltb_spec r ni) as [Hlt|Hge].
      - rewrite SFi, SFa by lia. reflexivity.
      - rewrite SQ by lia. f_equal. apply Sigma_ext. intros y Hy. rewrite SFi by lia. reflexivity. }
    assert (SF0 : forall r s, ni + na <= r < no -> s < no -> at2 F' no r s = 0%Qc).
    { intros r s Hr Hs. destruct G3 as (_ & _ & G3). unfold at2. rewrite G3.
      - apply nth_repeat.
      - intros i j Hi Hj E. apply pos2_inj in E; lia. }
    assert (SG : forall p q, rotates ni na nv p q -> nth (rot_index ni na nv p q) OG' 0%Qc = orbital_gradient ni na t v (at2 A1 na) (at4 A2 na) p q).
    { intros p q R. rewrite R4 by auto. pose proof (rotates_bound _ _ _ _ _ R) as (Bp & Bq & Bqp). unfold orbital_gradient. cbv zeta. f_equal.
      destruct (Nat.ltb_spec p (ni + na)), (Nat.ltb_spec q (ni + na)).
      - rewrite !SF by lia. reflexivity.
      - rewrite SF, SF0 by lia. reflexivity.
      - rewrite SF0, SF by lia. reflexivity.
      - rewrite !SF0 by lia. reflexivity. }
    exists Fa', Q', F', OG'. split; auto. split; auto. split; auto. split; auto. split; [lia|]. split; auto. split; auto. split; auto.
    unfold dot. rewrite (rot_sum ni na nv _ (fun p q => orbital_gradient ni na t v (at2 A1 na) (at4 A2 na) p q * orbital_gradient ni na t v (at2 A1 na) (at4 A2 na) p q)%Qc); [reflexivity|].
    intros p q R. rewrite SG by auto. reflexivity.
  Qed.

  (** ** the state before pass [iter] *)
  Record good (iter : nat) (s : mstate) (U t : nat -> nat -> Qc) (v : nat -> nat -> nat -> nat -> Qc) (h : list (list Qc * list Qc)) : Prop := mk_good {
    g_rot : rotated no U Tf Vf t v;
    g_U0 : iter = 0 -> same2 no U identity; g_U : 0 < iter -> same2 no U (at2 (m_U s) no);
    g_K0 : iter = 0 -> same2 no (at2 (m_K s) no) (fun _ _ => 0%Qc);
    g_sizes : sizes no ni na nv na s; g_hist : history st no ni na nv iter s h;
    g_A1 : length (m_A1 s) = L1; g_A2 : length (m_A2 s) = L2; g_X : PX (m_X s);
    g_Fi : same2 no (at2 (m_Fi s) no) (inactive_fock ni t v);
    g_Fa : same2 no (at2 (m_Fa s) no) (active_fock ni na v (at2 (m_A1 s) na));
    g_F : forall r c, r < ni + na -> c < no -> at2 (m_F s) no r c = generalized_fock ni na t v (at2 (m_A1 s) na) (at4 (m_A2 s) na) r c;
    g_OG : forall p q, rotates ni na nv p q -> nth (rot_index ni na nv p q) (m_OG s) 0%Qc = orbital_gradient ni na t v (at2 (m_A1 s) na) (at4 (m_A2 s) na) p q
  }.
  (* the energy and the convergence test of pass [iter] > 0 *)
  Definition ci_result (s : mstate) (t : nat -> nat -> Qc) (v : nat -> nat -> nat -> nat -> Qc) : Prop :=
    (exists TA VA e, active_arrays ni na t v TA VA /\ Post TA VA e (m_A1 s) (m_A2 s) /\ m_E0 s = (E_core + core_energy ni t v + e)%Qc) /\
    root (inject sz) <> 0%Qc /\
    m_conv s = qlt (root (gradient_norm2 ni na nv t v (at2 (m_A1 s) na) (at4 (m_A2 s) na)) / root (inject sz))%Qc (orb_grad_tol st).

  Lemma iter_out iter s U t v h : 0 < sz -> good iter s U t v h ->
    outcome (fun s' => exists U' t' v' h' k kl Kp, good (S iter) s' U' t' v' h' /\ ci_result s' t' v' /\
               moved gelss expm st no ni na nv na iter s h h' (m_K s') (m_U s') k kl Kp) F
      (mcscf_iter root gelss expm rdms st nalpha nbeta no ni na nv E_core T LDT V no na na iter s).
  Proof.
    intros Hsz []. pose proof no_pos as Hn0. unfold mcscf_iter.
    eapply outcome_det; [apply (rotate_out gelss expm st no ni na nv na) with (F := F) (h := h); auto|].
    { intros Hi. apply (orthogonal_same no U); auto. apply g_rot0. }
    intros [[K Un] d] (SK & LU & OU & h' & k & kl & Kp & Ed & Hh' & Lh' & Mv).
    destruct g_sizes0.
    destruct (two_index_ok no no T LDT Un no (m_T s) no) as (tT & E1 & G1); auto using fits2_packed. apply (outcome_ok _ _ _ _ _ E1).
    destruct (four_index_ok no no V no Un no (m_V s) no) as (tV & E2 & G2); auto using fits2_packed.
    { intros i m Hi Hm. apply fits4_length in HV; auto. assert (i + m * no < no * no * (no * no)) by nia. lia. }
    { apply fits4_packed_ge. lia. }
    apply (outcome_ok _ _ _ _ _ E2).
    assert (G2' : same4 no (at4 tV no) (congruence4 no (at2 Un no) Vf)).
    { intros p q r c Hp Hq Hr Hc. rewrite (filled4_at _ _ _ _ _ p q r c G2) by auto. apply congruence4_ext; auto. intros. apply first4_packed. }
    assert (FT : fits2 tT no no no) by (apply fits2_packed; rewrite (proj1 G1); auto).
    assert (FV : fits4 tV no no) by (apply fits4_packed_ge; rewrite (proj1 G2); lia).
    destruct (active_hamiltonian_ok no na ni tT no tV no (m_Fi s) no (m_TA s) na (m_VA s) na) as (Fi & TA & VA & E3 & G3 & G4 & G5); auto using fits2_packed; try lia.
    { apply fits4_packed_ge. lia. }
    apply (outcome_ok _ _ _ _ _ E3).
    set (t' := at2 tT no) in *. set (v' := at4 tV no) in *.
    assert (Rot : rotated no (at2 Un no) Tf Vf t' v').
    { split; auto. split; auto. intros p q Hp Hq. unfold t'. rewrite (filled2_at _ _ _ _ _ _ p q G1) by auto. reflexivity. }
    assert (St : symmetric2 no t'). { apply (same2_sym no (congruence2 no (at2 Un no) Tf)); [|apply congruence2_sym; auto]. intros p q Hp Hq. symmetry. apply Rot; auto. }
    assert (Sv : eightfold no v'). { apply (same4_eight no (congruence4 no (at2 Un no) Vf)); [|apply congruence4_eight; auto]. intros p q r c Hp Hq Hr Hc. symmetry. apply Rot; auto. }
    assert (LFi : length Fi = no * no) by (rewrite (proj1 G3); auto).
    assert (SFi : same2 no (at2 Fi no) (inactive_fock ni t' v')) by (intros p q Hp Hq; exact (filled2_at _ _ _ _ _ _ p q G3 Hp Hq)).
    assert (AA : active_arrays ni na t' v' TA VA).
    { split; [rewrite (proj1 G4); auto|]. split; [rewrite (proj1 G5); auto|]. split.
      - intros p q Hp Hq. exact (filled2_at _ _ _ _ _ _ p q G4 Hp Hq).
      - intros p q r c Hp Hq Hr Hc. exact (filled4_at _ _ _ _ _ p q r c G5 Hp Hq Hr Hc). }
    assert (EI : inactive_energy ni tT no Fi no = Ok (core_energy ni t' v')).
    { rewrite inactive_energy_ok; [|apply (fits2_le _ _ no no); auto; lia|apply (fits2_le _ _ no no); auto using fits2_packed; lia].
      rewrite <- core_energy_fock. f_equal. apply Sigma_ext. intros i Hi. rewrite SFi by lia. reflexivity. }
    apply (outcome_ok _ _ _ _ _ EI).
    destruct (zero_fill_ok (na * na) (m_A1 s)) as (Z1 & EZ1 & LZ1 & ZZ1); [lia|]. apply (outcome_ok _ _ _ _ _ EZ1).
    destruct (zero_fill_ok (na * na * (na * na)) (m_A2 s)) as (Z2 & EZ2 & LZ2 & ZZ2); [lia|]. apply (outcome_ok _ _ _ _ _ EZ2).
    destruct AA as (LTA & LVA & STA & SVA).
    eapply outcome_bind; [apply Hrdms; auto|].
    { apply (same2_sym na (active_T ni t' v')); [intros p q Hp Hq; symmetry; auto|]. apply (active_T_sym no); auto. lia. }
    { apply (same4_eight na (active_V ni v')); [intros p q r c Hp Hq Hr Hc; symmetry; auto|]. apply (active_V_eight no); auto. lia. }
    { lia. } { lia. }
    intros [[[e B1] B2] X'] (LB1 & LB2 & PX' & HPost).
    destruct (gradient_good t' v' tV no B1 B2 Fi (m_Fa s) (m_Q s) (m_OG s)) as (Fa' & Q' & F' & OG' & EG & LFa & LQ & LF & LOG & SFa & SF & SG & NG); auto; try lia.
    { intros p q r c _ _ _ _. reflexivity. }
    rewrite z_F. apply (outcome_ok _ _ _ _ _ EG).
    assert (EN : nrm2 root OG' = Ok (root (gradient_norm2 ni na nv t' v' (at2 B1 na) (at4 B2 na)))).
    { unfold nrm2. rewrite dot__ok by lia. cbn [bind]. rewrite LOG, NG. reflexivity. }
    apply (outcome_ok _ _ _ _ _ EN). rewrite rot_sz_eq. unfold fdiv. destruct (Qc_eq_dec (root (inject sz)) 0) as [Zr|Zr].
    { intros r [(e' & E' & ->)|(a & E' & _)]; [injection E' as ->; exact HFn|discriminate E']. }
    eapply outcome_ok; [reflexivity|]. apply outcome_ret. exists (at2 Un no), t', v', h', k, kl, Kp. split; [|split].
    - constructor; cbn [m_E0 m_A1 m_A2 m_X m_TA m_VA m_Fi m_Fa m_Q m_F m_OG m_T m_V m_U m_K m_diis m_conv]; auto; try lia.
      + intros _ p q _ _. reflexivity.
      + constructor; cbn [m_E0 m_A1 m_A2 m_X m_TA m_VA m_Fi m_Fa m_Q m_F m_OG m_T m_V m_U m_K m_diis m_conv]; auto.
        * apply fits2_packed_ge. lia.
        * rewrite (proj1 G1); auto.
        * rewrite (proj1 G2); auto.
      + split; cbn [m_K m_diis]; auto.
    - split; cbn [m_E0 m_A1 m_A2 m_conv]; [|split; auto].
      exists TA, VA, e. split; [split; auto|]. split; auto. ring.
    - exact Mv.
  Qed.

  (** ** before the loop *)
  Definition passed (A1 : list Qc) : bool := negb (qlt (Q2Qc (1 # 1000000)) (Qcabs (trace na (at2 A1 na) - inject nalpha - inject nbeta))).
  Definition start_result (A1 A2 : list Qc) (s : mstate) : Prop :=
    m_E0 s = (E_core + total_energy ni na Tf Vf (at2 (m_A1 s) na) (at4 (m_A2 s) na))%Qc /\
    (if passed A1 then m_A1 s = A1 /\ m_A2 s = A2
     else exists TA VA e, active_arrays ni na Tf Vf TA VA /\ Post TA VA e (m_A1 s) (m_A2 s)) /\
    m_conv s = qlt (root (gradient_norm2 ni na nv Tf Vf (at2 (m_A1 s) na) (at4 (m_A2 s) na))) (orb_grad_tol st).
  Lemma total_energy_dot t v TA VA D D2 : active_arrays ni na t v TA VA ->
    (dot (na * na) D TA + dot (na * na * (na * na)) D2 VA + core_energy ni t v)%Qc = total_energy ni na t v (at2 D na) (at4 D2 na).
  Proof.
    intros (_ & _ & S1 & S2). rewrite dot_packed2, dot_packed4. unfold total_energy, valence_energy.
    rewrite Qcplus_comm. f_equal. f_equal.
    - apply Sigma_ext. intros i Hi. apply Sigma_ext. intros j Hj. rewrite S1 by auto. reflexivity.
    - apply Sigma_ext. intros i Hi. apply Sigma_ext. intros j Hj. apply Sigma_ext. intros k Hk. apply Sigma_ext. intros l Hl. rewrite S2 by auto. reflexivity.
  Qed.
  Lemma rotated_identity : rotated no identity Tf Vf Tf Vf.
  Proof.
    split; [apply identity_orthogonal|]. split.
    - intros p q Hp Hq. symmetry. apply congruence2_id; auto.
    - intros p q r c Hp Hq Hr Hc. symmetry. apply congruence4_id; auto.
  Qed.
  Lemma start_out A1 A2 : length A1 = L1 -> length A2 = L2 ->
    outcome (fun s => good 0 s identity Tf Vf [] /\ start_result A1 A2 s) F
      (mcscf_start root rdms st nalpha nbeta no ni na nv E_core T LDT V no na na A1 A2).
  Proof.
    intros HA1 HA2. pose proof no_pos as Hn0. unfold mcscf_start.
    assert (LT := fits2_length T LDT no Hn0 HT). assert (LV := fits4_length V no Hn0 HV).
    eapply outcome_ok; [apply slice_ok; lia|]. eapply outcome_ok; [apply slice_ok; lia|].
    destruct (active_hamiltonian_ok no na ni T LDT V no (repeat 0%Qc (no * no)) no (repeat 0%Qc (na * na)) na (repeat 0%Qc (na * na * (na * na))) na)
      as (Fi & TA & VA & E3 & G3 & G4 & G5); auto using fits2_repeat, fits4_repeat; try lia.
    apply (outcome_ok _ _ _ _ _ E3).
    assert (LFi : length Fi = no * no) by (rewrite (proj1 G3); apply repeat_length).
    assert (SFi : same2 no (at2 Fi no) (inactive_fock ni Tf Vf)) by (intros p q Hp Hq; exact (filled2_at _ _ _ _ _ _ p q G3 Hp Hq)).
    assert (AA : active_arrays ni na Tf Vf TA VA).
    { split; [rewrite (proj1 G4); apply repeat_length|]. split; [rewrite (proj1 G5); apply repeat_length|]. split.
      - intros p q Hp Hq. exact (filled2_at _ _ _ _ _ _ p q G4 Hp Hq).
      - intros p q r c Hp Hq Hr Hc. exact (filled4_at _ _ _ _ _ p q r c G5 Hp Hq Hr Hc). }
    assert (EI : inactive_energy ni T LDT Fi no = Ok (core_energy ni Tf Vf)).
    { rewrite inactive_energy_ok; [|apply (fits2_le _ _ no no); auto; lia|apply (fits2_le _ _ no no); auto using fits2_packed; lia].
      rewrite <- core_energy_fock. f_equal. apply Sigma_ext. intros i Hi. rewrite SFi by lia. reflexivity. }
    apply (outcome_ok _ _ _ _ _ EI).
    assert (ETr : sumM 0%Qc (seq 0 na) (fun i => at_ A1 (i * (na + 1))) = Ok (trace na (at2 A1 na))).
    { apply sumM_Sigma0. intros i Hi. unfold at2. replace (i + i * na) with (i * (na + 1)) by lia. apply at_ok. pose proof (cell_lt na i i Hi Hi). lia. }
    apply (outcome_ok _ _ _ _ _ ETr).
    eapply (outcome_bind (fun D => let '(B1, B2, X) := D in length B1 = L1 /\ length B2 = L2 /\ PX X /\
       (if passed A1 then B1 = A1 /\ B2 = A2 else exists TA VA e, active_arrays ni na Tf Vf TA VA /\ Post TA VA e B1 B2))).
    { unfold passed. destruct (qlt _ _); cbn [negb].
      - destruct (zero_fill_ok (na * na) A1) as (Z1 & EZ1 & LZ1 & ZZ1); [lia|]. apply (outcome_ok _ _ _ _ _ EZ1).
        destruct (zero_fill_ok (na * na * (na * na)) A2) as (Z2 & EZ2 & LZ2 & ZZ2); [lia|]. apply (outcome_ok _ _ _ _ _ EZ2).
        pose proof AA as (LTA & LVA & STA & SVA).
        eapply outcome_bind; [apply Hrdms; auto|].
        { apply (same2_sym na (active_T ni Tf Vf)); [intros p q Hp Hq; symmetry; auto|]. apply (active_T_sym no); auto. lia. }
        { apply (same4_eight na (active_V ni Vf)); [intros p q r c Hp Hq Hr Hc; symmetry; auto|]. apply (active_V_eight no); auto. lia. }
        { lia. } { lia. }
        intros [[[e B1] B2] X'] (LB1 & LB2 & PX' & HPost). apply outcome_ret. split; auto. split; auto. split; auto. exists TA, VA, e. auto.
      - apply outcome_ret. auto. }
    intros [[B1 B2] X] (LB1 & LB2 & HX & HP).
    assert (ED1 : dot_ (na * na) B1 TA = Ok (dot (na * na) B1 TA)) by (apply dot__ok; [lia|rewrite (proj1 AA); lia]).
    assert (ED2 : dot_ (na * na * (na * na)) B2 VA = Ok (dot (na * na * (na * na)) B2 VA)) by (apply dot__ok; [lia|rewrite (proj1 (proj2 AA)); lia]).
    apply (outcome_ok _ _ _ _ _ ED1). apply (outcome_ok _ _ _ _ _ ED2). rewrite rot_sz_eq.
    destruct (gradient_good Tf Vf V no B1 B2 Fi (repeat 0%Qc (no * no)) (repeat 0%Qc (na * no)) (repeat 0%Qc sz)) as (Fa' & Q' & F' & OG' & EG & LFa & LQ & LF & LOG & SFa & SF & SG & NG).
    { exact HV. } { intros p q r c _ _ _ _. reflexivity. }
    { rewrite LB1. exact HL1. } { rewrite LB2. exact HL2. } { exact LFi. } { exact SFi. } { apply repeat_length. } { apply repeat_length. } { apply repeat_length. }
    apply (outcome_ok _ _ _ _ _ EG).
    assert (EN : nrm2 root OG' = Ok (root (gradient_norm2 ni na nv Tf Vf (at2 B1 na) (at4 B2 na)))).
    { unfold nrm2. rewrite dot__ok by lia. cbn [bind]. rewrite LOG, NG. reflexivity. }
    apply (outcome_ok _ _ _ _ _ EN). apply outcome_ret. split.
    - clear HP ETr. constructor; cbn [m_E0 m_A1 m_A2 m_X m_TA m_VA m_Fi m_Fa m_Q m_F m_OG m_T m_V m_U m_K m_diis m_conv]; auto; try lia.
      + apply rotated_identity.
      + intros _ p q _ _. reflexivity.
      + intros _ p q _ _. unfold at2. apply nth_repeat.
      + constructor; cbn [m_E0 m_A1 m_A2 m_X m_TA m_VA m_Fi m_Fa m_Q m_F m_OG m_T m_V m_U m_K m_diis m_conv]; auto using repeat_length; try apply AA.
        * apply fits2_packed_ge. lia.
        * rewrite firstn_length, skipn_length. lia.
        * rewrite firstn_length, skipn_length. lia.
      + split; [apply skew_zero|]. cbn [m_diis]. split; [unfold diis_new, lastn; rewrite skipn_nil; reflexivity|]. split; [intros p []|]. destruct (enable_diis st); reflexivity.
    - split; cbn [m_E0 m_A1 m_A2 m_conv]; [|split; [exact HP|reflexivity]]. rewrite <- (total_energy_dot Tf Vf TA VA) by exact AA. ring.
  Qed.
End RUN.
