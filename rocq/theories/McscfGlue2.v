(** More about the CI densities and the answers of the optimisation (C56 - C60): energy and
    trace of the densities, runs that cannot return. *)
From Coq Require Import QArith Qcanon Qcabs Lia.
From Coq Require Import Lqa.
From Verif Require Import Base SD Spec FockSpec SlaterCondon Ham HamProofs6 HamProofs8 Sums SDProofs3 Nondet Asci AsciSort Mem MemProofs Dense DenseSpec Davidson DavSpec DavProofs DavProofs2 DavProofs5 DavProofs9 DavProofs11 DavProofs14
  Diis DiisSpec DiisProofs PropsHamGlue CsrView DavEx DenseProofs RotProofs ExpandProofs Mcscf McscfSpec CasciSpec McscfProofs McscfProofs2 McscfProofs4 McscfProofs6 McscfGlue.
Local Open Scope nat_scope.

Lemma abs_sum {A} (l : list A) (f g h : A -> Qc) : (forall a, In a l -> (Qcabs (f a - g a) <= h a)%Qc) -> (Qcabs (sum l f - sum l g) <= sum l h)%Qc.
Proof.
  intros H. rewrite qabs_std. induction l as [|a l IH]; cbn [sum]; [vm_compute; discriminate|].
  replace (f a + sum l f - (g a + sum l g))%Qc with ((f a - g a) + (sum l f - sum l g))%Qc by ring.
  eapply Qcle_trans; [apply Qcabs_triangle|]. apply Qcplus_le_compat; [rewrite <- qabs_std; apply H; left; reflexivity|]. apply IH. intros b Hb. apply H. right. exact Hb.
Qed.
Lemma sum_combine (d : list N) (Y : list Qc) (F : N * Qc -> Qc) : length Y = length d -> sum (combine d Y) F = Sigma (length d) (fun i => F (nth i d 0%N, nth i Y 0%Qc)).
Proof.
  revert Y. induction d as [|a d IH]; intros [|y Y] L; cbn in L; try lia; [reflexivity|]. cbn [combine sum length]. unfold Sigma. cbn [seq sum nth].
  f_equal. rewrite <- seq_shift, sum_map. cbn [nth]. rewrite IH by lia. reflexivity.
Qed.
Lemma sq_nonneg (x : Qc) : (0 <= x * x)%Qc.
Proof. unfold Qcle, Qcmult. cbn [this Q2Qc]. change (this (Q2Qc 0)) with 0%Q. rewrite (Qred_correct (this x * this x)). exact (square_Q (this x)). Qed.
Lemma sum_nonneg {A} (l : list A) f : (forall a, In a l -> (0 <= f a)%Qc) -> (0 <= sum l f)%Qc.
Proof. intros H. rewrite <- (sum_zero l (fun _ => 0%Qc)) by auto. apply sum_nonneg_le. exact H. Qed.
Lemma term_le n f i : (forall j, j < n -> (0 <= f j)%Qc) -> i < n -> (f i <= Sigma n f)%Qc.
Proof.
  intros H Hi. rewrite <- (ExpandProofs.Sigma_delta n i f Hi). unfold Sigma. apply sum_nonneg_le. intros a Ha. apply in_seq in Ha.
  destruct (a =? i); [rewrite Qcmult_1_l; apply Qcle_refl|rewrite Qcmult_0_l; apply H; lia].
Qed.
Lemma unit_square (Y : list Qc) n i : dot n Y Y = 1%Qc -> i < n -> (nth i Y 0 * nth i Y 0 <= 1)%Qc.
Proof. intros D Hi. rewrite <- D. unfold dot. apply (term_le n (fun i => nth i Y 0 * nth i Y 0)%Qc); [intros j _; apply sq_nonneg|exact Hi]. Qed.
Lemma unit_product (Y : list Qc) n i j : dot n Y Y = 1%Qc -> i < n -> j < n -> (Qcabs (nth i Y 0 * nth j Y 0) <= 1)%Qc.
Proof.
  intros D Hi Hj. pose proof (unit_square Y n i D Hi) as Ui. pose proof (unit_square Y n j D Hj) as Uj. rewrite qabs_std.
  set (a := nth i Y 0%Qc) in *. set (b := nth j Y 0%Qc) in *.
  assert (X : (Qcabs.Qcabs (a * b) * Qcabs.Qcabs (a * b) = (a * a) * (b * b))%Qc).
  { rewrite <- Qcabs_Qcmult. rewrite Qcabs_pos by apply sq_nonneg. ring. }
  pose proof (Qcabs_nonneg (a * b)) as P. pose proof (sq_nonneg a) as Sa. pose proof (sq_nonneg b) as Sb. revert Ui Uj X P Sa Sb.
  generalize (Qcabs.Qcabs (a * b)). generalize (a * a)%Qc, (b * b)%Qc. clear. intros x y w Ux Uy E P Sa Sb.
  assert (Ew : (this w * this w == this x * this y)%Q). { apply (f_equal this) in E. cbn [this Qcmult Q2Qc] in E. rewrite <- (Qred_correct (this w * this w)), <- (Qred_correct (this x * this y)). rewrite E. reflexivity. }
  unfold Qcle in *. change (this 1%Qc) with 1%Q in *. change (this 0%Qc) with 0%Q in *. nra.
Qed.

Local Notation eps := (Q2Qc (1 # 10000000000000000)).
Lemma eps_pos : (0 <= eps)%Qc. Proof. vm_compute. discriminate. Qed.
(** the returned energy and the energy of the densities differ by the elements neglected in
    the matrix and the pairs neglected in the densities *)
Lemma ci_energy W n T V thr dets Y g G : eri_symmetric n V -> (0 <= thr)%Qc -> length Y = length dets -> dot (length dets) Y Y = 1%Qc ->
  densities_of W n (combine dets Y) g G ->
  (Qcabs (expectation (length dets) (ci_matrix W (mk_ints n T V) thr dets) Y - FockSpec.contract n T g V G) <=
   Sigma (length dets) (fun i => Sigma (length dets) (fun j => thr + eps * Qcabs (ham W n T V (nth i dets 0%N) (nth j dets 0%N)))))%Qc.
Proof.
  intros SV Ht L D (_ & H & _). rewrite H by exact SV. unfold over_pairs. rewrite sum_combine by exact L. cbn [fst snd]. unfold expectation, Sigma. apply abs_sum. intros i Hi. apply in_seq in Hi.
  rewrite sum_combine by exact L. cbn [fst snd]. unfold matvec, Sigma. rewrite <- sum_scale. apply abs_sum. intros j Hj. apply in_seq in Hj.
  unfold ci_matrix. cbv zeta. cbn [norb T_pq V_pqrs]. set (x := ham W n T V (nth i dets 0%N) (nth j dets 0%N)).
  pose proof (unit_product Y _ i j D ltac:(lia) ltac:(lia)) as U. set (a := nth i Y 0%Qc) in *. set (b := nth j Y 0%Qc) in *.
  assert (Hx : (0 <= Qcabs x)%Qc) by apply qabs_nonneg. assert (Hex : (0 <= eps * Qcabs x)%Qc) by (rewrite <- (Qcmult_0_l (Qcabs x)); apply Qcmult_le_compat_r; [apply eps_pos|exact Hx]).
  destruct (qlt eps (Qcabs (a * b))) eqn:E1, (qlt thr (Qcabs x)) eqn:E2.
  - replace (a * (x * b) - a * b * x)%Qc with 0%Qc by ring. rewrite <- (Qcplus_0_r 0). change (Qcabs 0) with 0%Qc. rewrite Qcplus_0_r at 1. rewrite <- (Qcplus_0_r 0). apply Qcplus_le_compat; assumption.
  - replace (a * (0 * b) - a * b * x)%Qc with (- (1) * (a * b * x))%Qc by ring. rewrite !qabs_mult. rewrite <- qabs_mult. change (Qcabs (- (1))%Qc) with 1%Qc. rewrite Qcmult_1_l.
    apply qlt_false in E2. rewrite <- (Qcplus_0_r (_ * Qcabs x)) at 1. apply Qcplus_le_compat; [|exact Hex].
    eapply Qcle_trans; [apply Qcmult_le_compat_r; [exact U|exact Hx]|]. rewrite Qcmult_1_l. exact E2.
  - replace (a * (x * b) - 0)%Qc with (a * b * x)%Qc by ring. rewrite qabs_mult. apply qlt_false in E1.
    rewrite <- (Qcplus_0_l (_ * Qcabs x)) at 1. apply Qcplus_le_compat; [exact Ht|]. apply Qcmult_le_compat_r; [exact E1|exact Hx].
  - replace (a * (0 * b) - 0)%Qc with 0%Qc by ring. change (Qcabs 0) with 0%Qc. rewrite <- (Qcplus_0_r 0). apply Qcplus_le_compat; assumption.
Qed.

(** ** the trace *)
Lemma trace_of W n w na nb g : spin_width W -> n <= W / 2 -> NoDup (map fst w) ->
  (forall b, In b w -> in_space W n (fst b) /\ size_is (alpha W (fst b)) na /\ size_is (beta W (fst b)) nb) ->
  (forall p q, p < n -> q < n -> g p q = over_pairs w (fun b k => sum spins (fun s => braket b [Cre (so W s p); Ann (so W s q)] k))) ->
  trace n g = (inject (na + nb) * sum w (fun b => if qlt eps (Qcabs (snd b * snd b)) then snd b * snd b else 0))%Qc.
Proof.
  intros HW Hn Nd Gd I. unfold trace, Sigma, over_pairs in *.
  rewrite (sum_ext (seq 0 n) _ (fun p => sum w (fun b => sum w (fun k =>
      if qlt eps (Qcabs (snd b * snd k))
      then (snd b * snd k *
        sum spins (fun s => braket (fst b) [Cre (so W s p); Ann (so W s p)] (fst k)))%Qc
      else 0%Qc)))).
  2:{ intros p Hp. apply in_seq in Hp. apply I; lia. }
  rewrite sum_swap, <- sum_scale. apply sum_ext. intros b Hb. rewrite sum_swap.
  rewrite (sum_single w b) ; auto.
  - destruct (qlt eps (Qcabs (snd b * snd b))).
    + rewrite sum_scale. rewrite (number_op W n Hn na nb) by (apply Gd; auto). rewrite N.eqb_refl. ring.
    + rewrite sum_zero by auto. ring.
  - apply NoDup_map_fst. auto.
  - intros k Hk Nk. destruct (qlt eps (Qcabs (snd b * snd k))).
    + rewrite sum_scale. rewrite (number_op W n Hn na nb) by (apply Gd; auto).
      destruct (N.eqb_spec (fst b) (fst k)) as [Eq|]; [|ring]. exfalso. apply Nk.
      destruct (In_nth _ _ (0%N, 0%Qc) Hb) as (i & Li & Ei). destruct (In_nth _ _ (0%N, 0%Qc) Hk) as (j & Lj & Ej).
      rewrite <- Ei, <- Ej in Eq |- *. f_equal.
      rewrite <- !(map_nth fst) in Eq.
      apply (NoDup_nth (map fst w) (fst (0%N, 0%Qc))) in Eq; auto; rewrite map_length; auto.
    + apply sum_zero. auto.
Qed.
Lemma sum_const_eps n : Sigma n (fun _ => eps) = (inject n * eps)%Qc.
Proof. induction n as [|n IH]; [apply Qc_is_canon; vm_compute; reflexivity|]. unfold Sigma in *. rewrite seq_S, sum_app, inject_S, IH. cbn [sum]. ring. Qed.
Lemma fst_combine (d : list N) (Y : list Qc) : length Y = length d -> map fst (combine d Y) = d.
Proof. revert Y. induction d as [|a d IH]; intros [|y Y] L; cbn in L; try lia; [reflexivity|]. cbn [combine map fst]. f_equal. apply IH. lia. Qed.
Lemma inject_nonneg n : (0 <= inject n)%Qc. Proof. change 0%Qc with (inject 0). apply inject_le. lia. Qed.
(** the number of electrons, short by what was neglected *)
Lemma ci_trace W n na nb dets Y g G : spin_width W -> n <= W / 2 -> whole_space W n na nb dets -> length Y = length dets -> dot (length dets) Y Y = 1%Qc ->
  densities_of W n (combine dets Y) g G ->
  (trace n g <= inject (na + nb))%Qc /\ (inject (na + nb) * (1 - inject (length dets) * eps) <= trace n g)%Qc.
Proof.
  intros HW Hn [ND SP] L D (I & _).
  rewrite (trace_of W n (combine dets Y) na nb g HW Hn); [|rewrite fst_combine by exact L; exact ND| |exact I].
  2:{ intros b Hb. apply SP. apply combine_in in Hb. exact Hb. }
  rewrite sum_combine by exact L. cbn [snd].
  set (S1 := Sigma _ _). assert (B1 : (S1 <= 1)%Qc).
  { rewrite <- D. unfold S1, dot, Sigma. apply sum_nonneg_le. intros i _. destruct (qlt _ _); [apply Qcle_refl|apply sq_nonneg]. }
  assert (B2 : (1 - inject (length dets) * eps <= S1)%Qc).
  { assert (X : (dot (length dets) Y Y <= S1 + inject (length dets) * eps)%Qc).
    { rewrite <- (sum_const_eps (length dets)). unfold S1, dot. rewrite <- Sigma_plus. unfold Sigma. apply sum_nonneg_le. intros i _. destruct (qlt _ _) eqn:E.
      - rewrite <- (Qcplus_0_r (_ * _)) at 1. apply Qcplus_le_compat; [apply Qcle_refl|apply eps_pos].
      - apply qlt_false in E. rewrite qabs_pos in E by apply sq_nonneg. rewrite Qcplus_0_l. exact E. }
    rewrite D in X. revert X. unfold Qcle, Qcminus, Qcplus, Qcopp. cbn [this Q2Qc]. rewrite !Qred_correct. lra. }
  split; rewrite (Qcmult_comm (inject (na + nb))).
  - rewrite <- (Qcmult_1_l (inject (na + nb))) at 2. apply Qcmult_le_compat_r; [exact B1|apply inject_nonneg].
  - rewrite (Qcmult_comm (inject (na + nb))). apply Qcmult_le_compat_r; [exact B2|apply inject_nonneg].
Qed.

(** ** what cannot return *)
Lemma binom_pos n k : k <= n -> 0 < binom n k.
Proof. revert k. induction n as [|n IH]; intros [|k] H; cbn; try lia. specialize (IH k ltac:(lia)). lia. Qed.
Lemma binom_all n : binom n n = 1.
Proof.
  assert (Z : forall n k, n < k -> binom n k = 0). { clear n. induction n as [|n IH]; intros [|k] H; cbn; try lia. rewrite !IH; lia. }
  induction n as [|n IH]; cbn; [reflexivity|]. rewrite IH, Z; lia.
Qed.
Lemma concat_length (l : list (list Qc)) m : (forall x, In x l -> m <= length x) -> length l * m <= length (concat l).
Proof. induction l as [|a l IH]; intros H; cbn [concat length]; [lia|]. rewrite app_length. specialize (H a (or_introl eq_refl)) as Ha. specialize (IH (fun x Hx => H x (or_intror Hx))). lia. Qed.
Lemma arrays_length W n dets C d1 d2 r : form_rdms_arrays W n dets C d1 d2 = Ok r -> length dets <= length C.
Proof.
  unfold form_rdms_arrays. destruct (_ && _); [|discriminate]. intros H. apply bind_inv in H. destruct H as (c & E & _). destruct (length dets) as [|k] eqn:Ek; [lia|]. rewrite <- Ek in *.
  apply (mapM_seq_inv _ _ _ 0%Qc) in E. destruct E as [_ E]. specialize (E k ltac:(lia)). apply (at_inv _ _ _ 0%Qc) in E. lia.
Qed.
Lemma mpi_never root syev W st na nalpha nbeta P : spin_width W -> na <= W / 2 -> nalpha <= na -> nbeta <= na -> (0 <= ci_matel_tol st)%Qc -> 2 <= P ->
  (Z.of_nat (binom na nalpha * binom na nbeta * P) < 2 ^ 31)%Z ->
  exists f0, forall dbg fuel TA VA D1 D2 C r, f0 <= fuel -> pair_symmetric na (at4 VA na) -> length C = P ->
    ~ p_compute_casci_rdms root syev dbg fuel W st P na nalpha nbeta TA VA D1 D2 C (Ok r).
Proof.
  intros HW Hn Ha Hb Ht HP HZ. assert (EW : Nat.even W = true) by (destruct HW as [->| ->]; reflexivity).
  destruct (hilbert_spec W na nalpha nbeta EW Hn Ha Hb) as (dets & (f0 & Hf) & ND & Ld & I). exists f0. intros dbg fuel TA VA D1 D2 C r Hfu SV LC H.
  unfold p_compute_casci_rdms in H. apply det_inv in H. destruct H as (h & Eh & H). apply det_inv in H. destruct H as (ds & Ed & H).
  specialize (Hf fuel Hfu). pose proof (eq_trans (eq_sym Hf) Ed) as X. injection X as <-.
  apply nd_inv in H. destruct H as ([E0 Ys] & HC & H). apply det_inv in H. destruct H as (D & ED & _).
  unfold span_ints in Eh. destruct (_ && _) in Eh; [|discriminate]. injection Eh as <-.
  eapply (p_ci_residual root syev dbg W _ _ dets nalpha nbeta P) in HC; [|exact HW|exact Hn|exact SV|intros b Hb'; apply I; exact Hb'|exact Ht|lia|rewrite Ld; exact HZ|exact LC].
  destruct HC as (E & _ & LY & _).
  pose proof (binom_pos na nalpha Ha) as P1. pose proof (binom_pos na nbeta Hb) as P2. assert (LP : 0 < length dets) by (rewrite Ld; nia).
  apply (mapM_seq_inv _ _ _ ([], [])) in ED. destruct ED as [_ ED].
  assert (K : forall i, i < P -> i < length Ys /\ length dets <= length (nth i Ys [])).
  { intros i Hi. specialize (ED i Hi). cbv beta in ED. apply bind_inv in ED. destruct ED as (c & Ec & ED). apply bind_inv in ED. destruct ED as (d1 & _ & ED). apply bind_inv in ED. destruct ED as (d2 & _ & ED).
    apply arrays_length in ED. apply (at_inv _ _ _ []) in Ec. destruct Ec as [Hl <-]. auto. }
  assert (LYs : P <= length Ys) by (specialize (K (P - 1) ltac:(lia)); lia).
  assert (CL : length (firstn P Ys) * length dets <= length (concat (firstn P Ys))).
  { apply concat_length. intros x Hx. apply (In_nth _ _ []) in Hx. destruct Hx as (i & Hi & <-). rewrite firstn_length in Hi. rewrite nth_firstn by lia. apply K. lia. }
  rewrite <- (firstn_skipn P Ys), concat_app, app_length in LY. rewrite firstn_length in CL. nia.
Qed.
Lemma one_determinant_never root syev W st na nalpha nbeta : spin_width W -> na <= W / 2 -> (nalpha = 0 \/ nalpha = na) -> (nbeta = 0 \/ nbeta = na) -> (0 <= ci_matel_tol st)%Qc ->
  exists f0, forall fuel TA VA D1 D2 C r, f0 <= fuel -> pair_symmetric na (at4 VA na) ->
    ~ compute_casci_rdms root syev fuel W st na nalpha nbeta TA VA D1 D2 C (Ok r).
Proof.
  intros HW Hn Ha Hb Ht. assert (EW : Nat.even W = true) by (destruct HW as [->| ->]; reflexivity).
  destruct (hilbert_spec W na nalpha nbeta EW Hn ltac:(lia) ltac:(lia)) as (dets & (f0 & Hf) & ND & Ld & I). exists f0. intros fuel TA VA D1 D2 C r Hfu SV H.
  assert (L1 : length dets = 1). { rewrite Ld. assert (binom na 0 = 1) by (destruct na; reflexivity). pose proof (binom_all na). destruct Ha as [->| ->], Hb as [->| ->]; lia. }
  unfold compute_casci_rdms in H. apply det_inv in H. destruct H as (h & Eh & H). apply det_inv in H. destruct H as (ds & Ed & H).
  specialize (Hf fuel Hfu). pose proof (eq_trans (eq_sym Hf) Ed) as X. injection X as <-.
  apply nd_inv in H. destruct H as ([E0 Y] & HC & _).
  unfold span_ints in Eh. destruct (_ && _) in Eh; [|discriminate]. injection Eh as <-.
  match type of HC with selected_ci_diag _ _ _ ?h _ ?t _ _ _ _ => destruct (ci_built W h t dets nalpha nbeta HW Hn SV (fun b Hb' => proj1 (I b) Hb') Ht) as (H0 & EH & CL & Em & FA) end.
  unfold selected_ci_diag in HC. apply det_inv in HC. destruct HC as (H1 & EH1 & HC). pose proof (eq_trans (eq_sym EH) EH1) as X. injection X as <-.
  unfold serial_selected_ci_diag in HC. apply det_inv in HC. destruct HC as (D & _ & HC). apply det_inv in HC. destruct HC as (k & _ & HC). apply det_inv in HC. destruct HC as (C' & _ & HC).
  apply nd_inv in HC. destruct HC as (s & HC & _).
  refine (davidson_small _ _ _ _ (csr_entry H0) _ _ _ _ _ _ _ HC); [|lia]. destruct CL as (Wf & En & _). apply multiplies_always, (sparse_multiplies H0 Wf En).
Qed.

(** ** the answer without its history *)
Lemma ham_same W n T T' V V' b k : same2 n T T' -> same4 n V V' -> ham W n T V b k = ham W n T' V' b k.
Proof.
  intros S2 S4. unfold ham, one_body, two_body. f_equal; [|f_equal]; repeat (apply sum_ext; intros ? ?; repeat match goal with X : In _ (seq 0 _) |- _ => apply in_seq in X end); f_equal; [apply S2|apply S4]; lia.
Qed.
Section ANSWER.
  Variables (root : Qc -> Qc) (syev : nat -> list Qc -> res (list Qc * list Qc)) (gelss : nat -> list Qc -> list Qc -> res (list Qc)) (expm : nat -> list Qc -> res (list Qc)) (st : settings)
    (nalpha nbeta no ni na nv : nat) (E_core : Qc) (T : list Qc) (LDT : nat) (V A1 A2 : list Qc).
  Hypothesis HP : orbital_problem no ni na nv T LDT V.
  Hypothesis HD : density_room na A1 A2.
  Hypothesis HR : rotations_or_tolerance root (orb_grad_tol st) ni na nv.
  Hypothesis HL : least_squares gelss.
  Hypothesis HE : exponential expm.
  Hypothesis HK : enable_diis st = true -> 0 < diis_nkeep st.
  Hypothesis Hn : na <= 32.
  Hypothesis Ha : nalpha <= na.
  Hypothesis Hb : nbeta <= na.
  Hypothesis Ht : (0 <= ci_matel_tol st)%Qc.
  Local Notation thr := (ci_matel_tol st).
  Local Notation tol := (ci_res_tol st).
  Local Notation gtol := (orb_grad_tol st).
  Local Notation run fuel := (casscf_diis root syev gelss expm fuel st nalpha nbeta no ni na nv E_core T LDT V no na na A1 A2).
  (** at least one pass was made *)
  Lemma last_point : exact_root root -> eigensolver syev -> exists f0, forall fuel E B1 B2 it conv, f0 <= fuel -> run fuel (Ok (E, B1, B2, (it, conv))) -> 0 < it ->
    it <= max_macro_iter st /\
    exists U T' V' TA VA e, rotated no U (at2 T LDT) (at4 V no) T' V' /\ active_arrays ni na T' V' TA VA /\
      ci_ground root 64 nalpha nbeta na thr tol TA VA e B1 B2 /\ E = (E_core + core_energy ni T' V' + e)%Qc /\
      (conv = true <-> (root (gradient_norm2 ni na nv T' V' (at2 B1 na) (at4 B2 na)) / root (inject (rot_size ni na nv)) < gtol)%Qc).
  Proof.
    intros XR XE. destruct (casscf_ground root syev gelss expm st nalpha nbeta no ni na nv E_core T LDT V A1 A2 HP HD HR HL HE HK Hn Ha Hb Ht XR XE) as (f0 & H).
    exists f0. intros fuel E B1 B2 it conv Hf Hr Hi. specialize (H fuel Hf _ Hr). destruct H as (_ & _ & tr & _ & _ & _ & (RT & SO) & (Lm & _ & CV & _) & (EE & E1 & E2)).
    split; [exact Lm|]. destruct (SO it ltac:(lia)) as (TA & VA & e & C1 & C2 & AA & G & D1 & D2 & EP).
    exists (p_U (tr it)), (p_T (tr it)), (p_V (tr it)), TA, VA, e. destruct HP as (-> & _). split; [exact (RT it (le_n _))|]. split; [exact AA|]. split.
    { destruct G as (dets & Y & WS & LY & R1 & R2 & R3 & R4 & DD). exists dets, Y. repeat (split; [assumption|]). rewrite <- E1, <- E2, D1, D2. exact DD. }
    split; [rewrite <- EE; exact EP|]. unfold converged_at in CV. rewrite (proj2 (Nat.eqb_neq it 0)) in CV by lia. rewrite E1, E2 in CV.
    destruct conv; [tauto|]. split; [discriminate|]. destruct CV as [_ CV]. tauto.
  Qed.
  Lemma active_symmetric T' V' U : rotated no U (at2 T LDT) (at4 V no) T' V' -> eri_symmetric na (active_V ni V').
  Proof.
    intros (OU & S2 & S4). destruct HP as (En & _ & _ & _ & _ & E8). apply eight_eri.
    assert (E8' : eightfold no V') by (apply (same4_eight no (congruence4 no U (at4 V no))); [intros p q r s Hp Hq Hr Hs; symmetry; apply S4; assumption|apply congruence4_eight; exact E8]).
    intros p q r s Hp Hq Hr Hs. unfold active_V, shift4. apply E8'; lia.
  Qed.
  Lemma energy_close : exact_root root -> eigensolver syev -> exists f0, forall fuel E B1 B2 it conv, f0 <= fuel -> run fuel (Ok (E, B1, B2, (it, conv))) ->
    exists U T' V' dets, rotated no U (at2 T LDT) (at4 V no) T' V' /\ whole_space 64 na nalpha nbeta dets /\
      (Qcabs (E - (E_core + total_energy ni na T' V' (at2 B1 na) (at4 B2 na))) <=
       if it =? 0 then 0 else
       Sigma (length dets) (fun i => Sigma (length dets) (fun j => thr + eps * Qcabs (ham 64 na (active_T ni T' V') (active_V ni V') (nth i dets 0%N) (nth j dets 0%N)))))%Qc.
  Proof.
    intros XR XE. destruct (casscf_ground root syev gelss expm st nalpha nbeta no ni na nv E_core T LDT V A1 A2 HP HD HR HL HE HK Hn Ha Hb Ht XR XE) as (f0 & H).
    exists f0. intros fuel E B1 B2 it conv Hf Hr. specialize (H fuel Hf _ Hr). destruct H as (_ & _ & tr & ST & _ & _ & (RT & SO) & _ & (EE & E1 & E2)).
    assert (En : no = ni + na + nv) by apply HP. rewrite <- En in RT.
    exists (p_U (tr it)), (p_T (tr it)), (p_V (tr it)). destruct it as [|it].
    - destruct (space_list nalpha nbeta na Hn Ha Hb) as (dets & WS & _). exists dets. split; [exact (RT 0 (le_n _))|]. split; [exact WS|].
      destruct ST as (_ & _ & S1 & S2 & S3). rewrite S1, S2, <- E1, <- E2, <- EE, S3. cbn [Nat.eqb]. unfold Qcminus. rewrite Qcplus_opp_r. apply Qcle_refl.
    - destruct (SO (S it) ltac:(lia)) as (TA & VA & e & C1 & C2 & AA & G & D1 & D2 & EP). destruct G as (dets & Y & WS & LY & R1 & R2 & R3 & R4 & DD). exists dets.
      pose proof (RT (S it) (le_n _)) as Rt. split; [exact Rt|]. split; [exact WS|]. cbn [Nat.eqb]. rewrite <- E1, <- E2, <- EE, EP. rewrite <- D1, <- D2 in DD.
      set (T' := p_T _) in *. set (V' := p_V _) in *. set (D := p_D _) in *. set (DD2 := p_D2 _) in *.
      destruct AA as (_ & _ & S2 & S4). pose proof (active_symmetric T' V' _ Rt) as SV.
      assert (X : (E_core + core_energy ni T' V' + e - (E_core + total_energy ni na T' V' D DD2))%Qc =
        (expectation (length dets) (ci_matrix 64 (mk_ints na (active_T ni T' V') (active_V ni V')) thr dets) Y - FockSpec.contract na (active_T ni T' V') D (active_V ni V') DD2)%Qc).
      { rewrite <- R3. unfold total_energy. replace (valence_energy na _ _ D DD2) with (FockSpec.contract na (active_T ni T' V') D (active_V ni V') DD2).
        2:{ unfold FockSpec.contract, valence_energy, active_T, active_V, Sigma. f_equal.
            - apply sum_ext. intros p _. apply sum_ext. intros q _. ring.
            - apply sum_ext. intros p _. apply sum_ext. intros q _. apply sum_ext. intros r _. apply sum_ext. intros c _. ring. }
        replace (expectation (length dets) (ci_matrix 64 (mk_ints na (at2 TA na) (at4 VA na)) thr dets) Y) with
          (expectation (length dets) (ci_matrix 64 (mk_ints na (active_T ni T' V') (active_V ni V')) thr dets) Y); [ring|].
        unfold expectation, matvec. apply Sigma_ext. intros i _. f_equal. apply Sigma_ext. intros j _. f_equal. unfold ci_matrix. cbn [norb T_pq V_pqrs].
        rewrite (ham_same 64 na (at2 TA na) (active_T ni T' V') (at4 VA na) (active_V ni V') _ _ S2 S4). reflexivity. }
      rewrite X. apply ci_energy; auto.
  Qed.
End ANSWER.

(** ** passes *)
Lemma pass_step expm mx diis start nkeep ni na nv tr i : (0 <= mx)%Qc -> orbital_pass expm mx diis start nkeep ni na nv tr i -> forall p q, p < ni + na + nv -> q < ni + na + nv ->
  (Qcabs (p_trial (tr (S i)) p q - p_K (tr i) p q) <= mx)%Qc /\
  (diis && (start + 2 <=? i) = false -> (Qcabs (p_K (tr (S i)) p q - p_K (tr i) p q) <= mx)%Qc).
Proof.
  intros Hm (_ & (s & L & TR) & KK & _) p q Hp Hq.
  assert (B : forall p q, rotates ni na nv p q -> (Qcabs (s p q) <= mx)%Qc).
  { clear - Hm L. intros p q R. destruct L as [[B E]|(a & b & Rab & Big & Max & E)]; rewrite E by exact R; [rewrite qabs_std; apply B; exact R|].
    rewrite qabs_mult. specialize (Max p q R). set (M := Qcabs.Qcabs _) in *.
    assert (Z : (0 < M)%Qc) by (eapply Qcle_lt_trans; eauto). assert (NZ : M <> 0%Qc) by (intros X; rewrite X in Z; discriminate).
    assert (Q : (0 <= mx / M)%Qc). { apply (Qcmult_lt_0_le_reg_r _ _ M); auto. rewrite Qcmult_0_l. unfold Qcdiv. rewrite <- Qcmult_assoc, (Qcmult_comm (/ _)), Qcmult_inv_r, Qcmult_1_r; auto. }
    rewrite (qabs_pos (mx / M)) by exact Q. eapply Qcle_trans with (mx / M * M)%Qc.
    - rewrite !(Qcmult_comm (mx / M)). apply Qcmult_le_compat_r; [rewrite qabs_std; exact Max|exact Q].
    - unfold Qcdiv. rewrite <- Qcmult_assoc, (Qcmult_comm (/ _)), Qcmult_inv_r, Qcmult_1_r by auto. apply Qcle_refl. }
  assert (D : (Qcabs (p_trial (tr (S i)) p q - p_K (tr i) p q) <= mx)%Qc).
  { rewrite TR by assumption. replace (p_K (tr i) p q + skew_matrix ni na nv s p q - p_K (tr i) p q)%Qc with (skew_matrix ni na nv s p q) by ring. unfold skew_matrix.
    destruct (rotatesb ni na nv p q) eqn:E1; [apply B; apply rotatesb_iff; exact E1|]. destruct (rotatesb ni na nv q p) eqn:E2; [|exact Hm].
    replace (- s q p)%Qc with (- (1) * s q p)%Qc by ring. rewrite qabs_mult. change (Qcabs (- (1))%Qc) with 1%Qc. rewrite Qcmult_1_l. apply B. apply rotatesb_iff. exact E2. }
  split; [exact D|]. intros E. rewrite E in KK. rewrite KK by assumption. exact D.
Qed.
Lemma loop_inv root gelss expm rdms st nalpha nbeta no ni na nv E_core T LDT V LDV LDD1 LDD2 (Inv : nat -> mstate -> Prop) :
  (forall i s s', Inv i s -> mcscf_iter root gelss expm rdms st nalpha nbeta no ni na nv E_core T LDT V LDV LDD1 LDD2 i s (Ok s') -> Inv (S i) s') ->
  forall rem i s s' it, Inv i s -> mcscf_loop root gelss expm rdms st nalpha nbeta no ni na nv E_core T LDT V LDV LDD1 LDD2 rem i s (Ok (s', it)) -> Inv it s'.
Proof.
  intros HI. induction rem as [|rem IH]; intros i s s' it Hi H; cbn [mcscf_loop] in H; [injection H as -> ->; exact Hi|].
  destruct (m_conv s); [injection H as -> ->; exact Hi|]. apply nd_inv in H. destruct H as (s1 & H1 & H). eapply IH; [|exact H]. eapply HI; eauto.
Qed.
Lemma impl_inv root gelss expm rdms st nalpha nbeta no ni na nv E_core T LDT V LDV LDD1 LDD2 (Inv : nat -> mstate -> Prop) A1 A2 E B1 B2 it conv :
  (forall s, mcscf_start root rdms st nalpha nbeta no ni na nv E_core T LDT V LDV LDD1 LDD2 A1 A2 (Ok s) -> Inv 0 s) ->
  (forall i s s', Inv i s -> mcscf_iter root gelss expm rdms st nalpha nbeta no ni na nv E_core T LDT V LDV LDD1 LDD2 i s (Ok s') -> Inv (S i) s') ->
  mcscf_impl root gelss expm rdms st nalpha nbeta no ni na nv E_core T LDT V LDV LDD1 LDD2 A1 A2 (Ok (E, B1, B2, (it, conv))) -> exists s, Inv it s.
Proof.
  intros H0 HI H. unfold mcscf_impl in H. apply nd_inv in H. destruct H as (s & Hs & H). apply nd_inv in H. destruct H as ([s' it'] & HL & H). injection H as -> -> -> -> ->.
  exists s'. eapply loop_inv; eauto.
Qed.
Lemma nothing_to_rotate root gelss expm rdms st nalpha nbeta no ni na nv E_core T LDT V LDV LDD1 LDD2 A1 A2 E B1 B2 it conv : rot_size ni na nv = 0 ->
  mcscf_impl root gelss expm rdms st nalpha nbeta no ni na nv E_core T LDT V LDV LDD1 LDD2 A1 A2 (Ok (E, B1, B2, (it, conv))) -> it = 0.
Proof.
  intros Z H. destruct (impl_inv root gelss expm rdms st nalpha nbeta no ni na nv E_core T LDT V LDV LDD1 LDD2 (fun i _ => i = 0) A1 A2 E B1 B2 it conv) as (s & Hs); auto.
  intros i s s' _ Hi. exfalso. unfold mcscf_iter in Hi. apply det_inv in Hi. destruct Hi as (R & ER & _). unfold rotate in ER. apply bind_inv in ER. destruct ER as (K & _ & ER).
  unfold rot_size in Z. replace (nv * (ni + na) + na * ni) with 0 in ER by nia. discriminate.
Qed.
Lemma no_history root gelss expm rdms st nalpha nbeta no ni na nv E_core T LDT V LDV LDD1 LDD2 A1 A2 E B1 B2 it conv : enable_diis st = true -> diis_nkeep st = 0 ->
  mcscf_impl root gelss expm rdms st nalpha nbeta no ni na nv E_core T LDT V LDV LDD1 LDD2 A1 A2 (Ok (E, B1, B2, (it, conv))) -> it <= diis_start_iter st.
Proof.
  intros En Z H. destruct (impl_inv root gelss expm rdms st nalpha nbeta no ni na nv E_core T LDT V LDV LDD1 LDD2 (fun i s => m_diis s = diis_new 0 /\ i <= diis_start_iter st) A1 A2 E B1 B2 it conv) as (s & Hs); auto; [| |tauto].
  - intros s Hs. unfold mcscf_start in Hs. apply det_inv in Hs. destruct Hs as (a1 & _ & Hs). apply det_inv in Hs. destruct Hs as (a2 & _ & Hs). apply det_inv in Hs. destruct Hs as ([[Fi TA] VA] & _ & Hs).
    apply det_inv in Hs. destruct Hs as (a4 & _ & Hs). apply det_inv in Hs. destruct Hs as (a5 & _ & Hs). apply nd_inv in Hs. destruct Hs as ([[B1' B2'] X] & _ & Hs).
    apply det_inv in Hs. destruct Hs as (a6 & _ & Hs). apply det_inv in Hs. destruct Hs as (a7 & _ & Hs). apply det_inv in Hs. destruct Hs as ([[[Fa Q] F] OG] & _ & Hs). apply det_inv in Hs. destruct Hs as (a9 & _ & Hs).
    injection Hs as ->. cbn [m_diis]. rewrite Z. split; [reflexivity|lia].
  - intros i s s' [D Hi] Hs. unfold mcscf_iter in Hs. apply det_inv in Hs. destruct Hs as ([[K U] d] & ER & Hs).
    assert (Q : d = m_diis s /\ i < diis_start_iter st).
    { unfold rotate in ER. apply bind_inv in ER. destruct ER as (a1 & _ & ER). apply bind_inv in ER. destruct ER as (a2 & _ & ER). apply bind_inv in ER. destruct ER as (a3 & _ & ER). apply bind_inv in ER. destruct ER as (a4 & _ & ER).
      apply bind_inv in ER. destruct ER as ([K' d'] & E1 & ER). apply bind_inv in ER. destruct ER as (U' & _ & ER). injection ER as <- <- <-. rewrite En, D in E1. cbn [andb] in E1.
      destruct (Nat.leb_spec (diis_start_iter st) i); [discriminate|]. injection E1 as <- <-. auto. }
    destruct Q as [-> Q].
    apply det_inv in Hs. destruct Hs as (a1 & _ & Hs). apply det_inv in Hs. destruct Hs as (a2 & _ & Hs). apply det_inv in Hs. destruct Hs as ([[Fi TA] VA] & _ & Hs).
    apply det_inv in Hs. destruct Hs as (a4 & _ & Hs). apply det_inv in Hs. destruct Hs as (a5 & _ & Hs). apply det_inv in Hs. destruct Hs as (a6 & _ & Hs). apply nd_inv in Hs. destruct Hs as ([[[e B1'] B2'] X] & _ & Hs).
    apply det_inv in Hs. destruct Hs as ([[[Fa QQ] F] OG] & _ & Hs). apply det_inv in Hs. destruct Hs as (a9 & _ & Hs). apply det_inv in Hs. destruct Hs as (a10 & _ & Hs).
    injection Hs as ->. cbn [m_diis]. split; [exact D|lia].
Qed.
