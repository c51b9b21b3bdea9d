(** The course of the optimisation. *)
From Coq Require Import QArith Qcanon Bool.
From Verif Require Import Base SD Sums Ham Nondet Asci AsciSort Mem MemProofs Dense DenseSpec DenseProofs FockMatProofs RotProofs HessProofs LinRespProofs ExpandProofs
  Diis DiisSpec DiisProofs DiisProofs2 Davidson DavProofs DavProofs2 DavProofs4 DenseGlue Mcscf McscfSpec McscfProofs McscfProofs2 McscfProofs3 McscfProofs4.
Local Open Scope nat_scope.

Lemma limited_pairs mx ni na nv (K k k' : nat -> Qc) f : (forall p q, rotates ni na nv p q -> k (rot_index ni na nv p q) = f p q) ->
  limited mx (rot_size ni na nv) k k' -> limited_rotation mx ni na nv f (fun p q => k' (rot_index ni na nv p q)).
Proof.
  intros Hf [[H1 H2]|(m & Hm & H1 & H2 & H3)].
  - left. split; intros p q R.
    + rewrite <- qabs_std, <- Hf by auto. apply H1. apply rot_index_bound; auto.
    + rewrite H2 by (apply rot_index_bound; auto). apply Hf; auto.
  - right. destruct (rot_index_onto ni na nv m Hm) as (a & b & R & <-). exists a, b. rewrite Hf in * by auto. split; auto. rewrite <- qabs_std. split; auto. split; intros p q R'.
    + rewrite <- qabs_std, <- Hf by auto. apply H2. apply rot_index_bound; auto.
    + rewrite H3 by (apply rot_index_bound; auto). rewrite Hf by auto. reflexivity.
Qed.
Lemma nth_lastn {A} n (l : list A) i d : nth i (lastn n l) d = nth (length l - n + i) l d.
Proof. unfold lastn. apply nth_skipn. Qed.
Lemma rot_norm ni na nv (g : nat -> Qc) f : (forall p q, rotates ni na nv p q -> g (rot_index ni na nv p q) = f p q) ->
  norm2 (rot_size ni na nv) g = pairs_norm2 ni na nv f.
Proof. intros H. unfold norm2. apply (rot_sum ni na nv (fun x => g x * g x)%Qc (fun p q => f p q * f p q)%Qc). intros p q R. rewrite H by auto. reflexivity. Qed.

Section RUN.
  Variables (root : Qc -> Qc) (gelss : nat -> list Qc -> list Qc -> res (list Qc)) (expm : nat -> list Qc -> res (list Qc)).
  Variables (rdms : rdm_functor) (st : settings) (nalpha nbeta no ni na nv : nat) (E_core : Qc) (T : list Qc) (LDT : nat) (V : list Qc) (L1 L2 : nat).
  Hypothesis Hno : no = ni + na + nv.
  Hypothesis Hna : 0 < na.
  Hypothesis HT : fits2 T LDT no no.
  Hypothesis HV : fits4 V no no.
  Hypothesis ST : symmetric2 no (at2 T LDT).
  Hypothesis SV : eightfold no (at4 V no).
  Hypothesis HL1 : na * na <= L1.
  Hypothesis HL2 : na * na * (na * na) <= L2.
  Hypothesis Hls : least_squares gelss.
  Hypothesis Hexp : exponential expm.
  Hypothesis Hkeep : enable_diis st = true -> 0 < diis_nkeep st.
  Variables (F : err -> Prop) (PX : list Qc -> Prop) (Post : list Qc -> list Qc -> Qc -> list Qc -> list Qc -> Prop).
  Hypothesis HFn : F NonFinite.
  Hypothesis HFg : forall k B b e, gelss k B b = Err e -> F e.
  Hypothesis HFe : forall n M e, expm n M = Err e -> F e.
  Hypothesis HX0 : PX [].
  Hypothesis Hrdms : forall TA VA Z1 Z2 X, length TA = na * na -> length VA = na * na * (na * na) -> symmetric2 na (at2 TA na) -> eightfold na (at4 VA na) ->
    zeros (na * na) Z1 -> zeros (na * na * (na * na)) Z2 -> length Z1 = L1 -> length Z2 = L2 -> PX X ->
    outcome (fun r => let '(e, B1, B2, X') := r in length B1 = L1 /\ length B2 = L2 /\ PX X' /\ Post TA VA e B1 B2) F (rdms na nalpha nbeta TA VA Z1 Z2 X).
  Local Notation sz := (rot_size ni na nv).
  Local Notation Tf := (at2 T LDT).
  Local Notation Vf := (at4 V no).
  Local Notation start := (diis_start_iter st).
  Local Notation stepped := (orbital_pass expm (max_orbital_step st) (enable_diis st) start (diis_nkeep st) ni na nv).

  Lemma Hsized : sized gelss.
  Proof. intros n B b c H. apply (Hls n B b c H). Qed.

  (** the list of tried rotations and gradients belongs to the points *)
  Definition recorded (tr : nat -> point) (h : list (list Qc * list Qc)) : Prop :=
    forall l, l < length h -> p_trial (tr (S (start + l))) = at2 (fst (nth l h ([], []))) no /\
      forall p q, rotates ni na nv p q -> nth (rot_index ni na nv p q) (snd (nth l h ([], []))) 0%Qc = gradient_at ni na (tr (start + l)) p q.
  Definition at_state (x : point) (s : mstate) : Prop := p_D x = at2 (m_A1 s) na /\ p_D2 x = at4 (m_A2 s) na /\ p_E x = m_E0 s.
  Record course (iter : nat) (s : mstate) (tr : nat -> point) (h : list (list Qc * list Qc)) : Prop := mk_course {
    c_good : good st no ni na nv T LDT V L1 L2 PX iter s (p_U (tr iter)) (p_T (tr iter)) (p_V (tr iter)) h;
    c_state : at_state (tr iter) s;
    c_K : same2 no (p_K (tr iter)) (at2 (m_K s) no);
    c_hist : recorded tr h;
    c_rot : forall i, i <= iter -> rotated no (p_U (tr i)) Tf Vf (p_T (tr i)) (p_V (tr i));
    c_moves : forall i, i < iter -> stepped tr i;
    c_solved : forall i, 0 < i <= iter -> solved ni na E_core Post (tr i);
    c_conv : m_conv s = true <-> converged_at root (orb_grad_tol st) ni na nv iter (tr iter);
    c_not : forall i, i < iter -> ~ converged_at root (orb_grad_tol st) ni na nv i (tr i);
    c_root : 0 < iter -> root (inject sz) <> 0%Qc
  }.
  Lemma moves_ext tr tr' i : (forall j, j <= S i -> tr j = tr' j) -> stepped tr i -> stepped tr' i.
  Proof.
    intros H. unfold orbital_pass. cbv zeta. rewrite <- !H by lia. intros (A & B & C & D). split; [exact A|]. split; [exact B|]. split; [|exact D].
    destruct (enable_diis st && (start + 2 <=? i)) eqn:E; [|exact C]. apply andb_true_iff in E. destruct E as [E1 E2]. apply Nat.leb_le in E2. specialize (Hkeep E1).
    unfold extrapolated in *. cbv zeta in *.
    set (k := Nat.min (diis_nkeep st) (S i - start)) in *. assert (Hk : k <= S i) by lia.
    destruct C as (c & C1 & C2 & C3). exists c. split; auto. split.
    - intros p q Hp Hq. rewrite C2 by auto. apply Sigma_ext. intros l Hl. rewrite H by lia. reflexivity.
    - assert (X : forall c0, pairs_norm2 ni na nv (fun p q => Sigma k (fun l => c0 l * gradient_at ni na (tr (S i - k + l)%nat) p q)%Qc) =
                             pairs_norm2 ni na nv (fun p q => Sigma k (fun l => c0 l * gradient_at ni na (tr' (S i - k + l)%nat) p q)%Qc)).
      { intros c0. unfold pairs_norm2. cbv zeta. apply Sigma_ext. intros p _. apply Sigma_ext. intros q _. destruct (rotatesb ni na nv p q); [|reflexivity].
        assert (Y : Sigma k (fun l => c0 l * gradient_at ni na (tr (S i - k + l)%nat) p q)%Qc = Sigma k (fun l => c0 l * gradient_at ni na (tr' (S i - k + l)%nat) p q)%Qc).
        { apply Sigma_ext. intros l Hl. rewrite H by lia. reflexivity. }
        rewrite Y. reflexivity. }
      intros c' Hc'. rewrite <- !X. apply C3; auto.
  Qed.

  (** what a rotation does, in terms of the points *)
  Lemma moved_moves iter s tr h h' U' k kl Kp y K : course iter s tr h ->
    moved gelss expm st no ni na nv na iter s h h' K U' k kl Kp -> (forall p, In p h' -> stored no sz p) ->
    p_K y = at2 K no -> p_trial y = at2 Kp no -> same2 no (p_U y) (at2 U' no) -> tr (S iter) = y ->
    length h = (if enable_diis st then iter - start else 0) -> recorded tr h' /\ stepped tr iter.
  Proof.
    intros [] [] Hst HK HT' HU Hy Lh. destruct c_good0. destruct c_state0 as (SD1 & SD2 & _). subst y.
    assert (Hg : forall p q, rotates ni na nv p q -> nth (rot_index ni na nv p q) (m_OG s) 0%Qc = gradient_at ni na (tr iter) p q).
    { intros p q R. unfold gradient_at. rewrite SD1, SD2. apply g_OG; auto. }
    assert (Hh : forall p q, rotates ni na nv p q -> step_hessian no ni na na s p q = hessian_at ni na (tr iter) p q).
    { intros p q R. pose proof (rotates_bound _ _ _ _ _ R) as (Bp & Bq & Bqp). unfold step_hessian, hessian_at, orbital_hessian, diagonal_hessian. cbv zeta. rewrite SD1, SD2.
      destruct (Nat.ltb_spec q ni).
      - destruct (Nat.ltb_spec p (ni + na)).
        + rewrite !g_Fi, !g_Fa, g_F by lia. reflexivity.
        + rewrite !g_Fi, !g_Fa by lia. reflexivity.
      - assert (q < ni + na) by (destruct R; lia). rewrite !g_Fi, !g_Fa, g_F by lia. reflexivity. }
    assert (Rec : recorded tr h').
    { rewrite v_hist. destruct (enable_diis st && (start <=? iter)) eqn:E; auto. apply andb_true_iff in E. destruct E as [E1 E2]. apply Nat.leb_le in E2. rewrite E1 in Lh.
      intros l Hl. rewrite app_length in Hl. cbn [length] in Hl. destruct (Nat.eq_dec l (length h)) as [->|Ne].
      - rewrite nth_middle. cbn [fst snd]. replace (start + length h) with iter by lia. split; auto.
      - rewrite app_nth1 by lia. apply c_hist0. lia. }
    split; auto. unfold orbital_pass. cbv zeta. rewrite <- Hno. split; [intros p q R; rewrite <- Hh by auto; apply v_newton; auto|]. split; [|split].
    - exists (fun p q => nth (rot_index ni na nv p q) kl 0%Qc). split.
      + apply (limited_pairs _ _ _ _ (fun _ => 0%Qc) (fun x => nth x k 0%Qc) (fun x => nth x kl 0%Qc)); auto.
        intros p q R. destruct (v_newton p q R) as [_ ->]. rewrite Hg, Hh by auto. reflexivity.
      + intros p q Hp Hq. rewrite HT', v_sum, c_K0 by auto. reflexivity.
    - destruct (enable_diis st && (start + 2 <=? iter)) eqn:E; [|rewrite HK, HT', v_diis; intros p q _ _; reflexivity].
      apply andb_true_iff in E. destruct E as [E1 E2]. apply Nat.leb_le in E2. rewrite E1 in *. cbn [andb] in v_hist.
      destruct (Nat.leb_spec start iter) as [Hle|Hgt]; [|lia].
      assert (Lh' : length h' = S iter - start). { rewrite v_hist, app_length. cbn [length]. lia. }
      assert (NE : h' <> []). { intros Z. rewrite Z in Lh'. cbn [length] in Lh'. lia. }
      destruct (diis_optimal gelss (diis_nkeep st) h' (no * no) sz (mk_diis (diis_nkeep st) (lastn (diis_nkeep st) h')) K) as (c & C1 & C2 & C3 & C4); auto.
      { intros p Hp. destruct (Hst p Hp) as [[L _] L']. auto. }
      { apply history_ok. auto. }
      unfold extrapolated. cbv zeta. rewrite <- Hno. rewrite lastn_length, Lh' in *. set (kk := Nat.min (diis_nkeep st) (S iter - start)) in *.
      assert (Ix : forall l, l < kk -> length h' - diis_nkeep st + l < length h' /\ start + (length h' - diis_nkeep st + l) = S iter - kk + l) by (intros l Hl; lia).
      assert (CF : forall c' m, combination c' (map fst (lastn (diis_nkeep st) h')) m = Sigma kk (fun l => c' l * nth m (fst (nth (length h' - diis_nkeep st + l) h' ([], []))) 0)%Qc).
      { intros c' m. unfold combination. rewrite map_length, lastn_length, Lh'. fold kk. apply Sigma_ext. intros l Hl. f_equal.
        change (@nil Qc) with (fst (@nil Qc, @nil Qc)) at 1. rewrite map_nth, nth_lastn, Lh'. reflexivity. }
      assert (CS : forall c' m, combination c' (map snd (lastn (diis_nkeep st) h')) m = Sigma kk (fun l => c' l * nth m (snd (nth (length h' - diis_nkeep st + l) h' ([], []))) 0)%Qc).
      { intros c' m. unfold combination. rewrite map_length, lastn_length, Lh'. fold kk. apply Sigma_ext. intros l Hl. f_equal.
        change (@nil Qc) with (snd (@nil Qc, @nil Qc)) at 1. rewrite map_nth, nth_lastn, Lh'. reflexivity. }
      exists c. split; auto. split.
      + intros p q Hp Hq. rewrite HK. unfold at2 at 1. rewrite C3, CF by (apply cell_lt; auto). apply Sigma_ext. intros l Hl. destruct (Ix l Hl) as [I1 I2].
        destruct (Rec _ I1) as [R1 _]. rewrite I2 in R1. rewrite R1. reflexivity.
      + intros c' Hc'. specialize (C4 c' Hc').
        assert (NN : forall c0, norm2 sz (combination c0 (map snd (lastn (diis_nkeep st) h'))) =
           pairs_norm2 ni na nv (fun p q => Sigma kk (fun l => c0 l * gradient_at ni na (tr (S iter - kk + l)%nat) p q)%Qc)).
        { intros c0. apply rot_norm. intros p q R. rewrite CS. apply Sigma_ext. intros l Hl. destruct (Ix l Hl) as [I1 I2].
          destruct (Rec _ I1) as [_ R1]. rewrite I2 in R1. rewrite R1 by auto. reflexivity. }
        rewrite <- !NN. exact C4.
    - destruct v_rot as (M & X & LM & RM & EM & SM). exists M, X. split; auto. split; [|split; auto].
      + intros i j Hi Hj. rewrite RM, c_K0, HK by auto. reflexivity.
      + intros i j Hi Hj. rewrite HU, SM by auto. unfold product. apply Sigma_ext. intros l Hl. f_equal. unfold prev_U. destruct (Nat.eqb_spec iter 0) as [I0|I0].
        * rewrite (g_U0 I0) by auto. reflexivity.
        * rewrite g_U by (auto; lia). reflexivity.
  Qed.

  Definition extend (tr : nat -> point) (iter : nat) (y : point) (j : nat) : point := if j <=? iter then tr j else y.
  Lemma extend_old tr iter y j : j <= iter -> extend tr iter y j = tr j.
  Proof. intros H. unfold extend. rewrite (proj2 (Nat.leb_le _ _) H). reflexivity. Qed.
  Lemma extend_new tr iter y : extend tr iter y (S iter) = y.
  Proof. unfold extend. rewrite (proj2 (Nat.leb_gt _ _)) by lia. reflexivity. Qed.
  Lemma recorded_ext tr tr' h : (forall j, j <= start + length h -> tr j = tr' j) -> recorded tr h -> recorded tr' h.
  Proof. intros H R l Hl. rewrite <- !H by lia. apply R; auto. Qed.
  Lemma course_ext iter s tr tr' h : (forall j, j <= iter -> tr j = tr' j) -> (h <> [] -> start + length h <= iter) -> course iter s tr h -> course iter s tr' h.
  Proof.
    intros H Hl []. constructor; try rewrite <- H by lia.
    - exact c_good0.
    - exact c_state0.
    - exact c_K0.
    - destruct h as [|p h]; [intros l Z; cbn [length] in Z; lia|]. apply (recorded_ext tr); [|exact c_hist0]. intros j Hj. apply H. assert (start + length (p :: h) <= iter) by (apply Hl; discriminate). lia.
    - intros i Hi. rewrite <- H by lia. apply c_rot0; lia.
    - intros i Hi. apply (moves_ext tr); [intros j Hj; apply H; lia|]. apply c_moves0; lia.
    - intros i Hi. rewrite <- H by lia. apply c_solved0; lia.
    - exact c_conv0.
    - intros i Hi. rewrite <- H by lia. apply c_not0; lia.
    - exact c_root0.
  Qed.
  Lemma course_step iter s tr h : 0 < sz -> course iter s tr h -> m_conv s = false ->
    outcome (fun s' => exists tr' h', course (S iter) s' tr' h' /\ tr' 0 = tr 0) F
      (mcscf_iter root gelss expm rdms st nalpha nbeta no ni na nv E_core T LDT V no na na iter s).
  Proof.
    intros Hsz C NC. eapply outcome_weaken.
    { eapply (iter_out root gelss expm rdms st nalpha nbeta no ni na nv E_core T LDT V L1 L2) with (F := F) (PX := PX) (Post := Post); try eassumption; [exact Hsized|exact (c_good _ _ _ _ C)]. }
    cbv beta. intros s' (U' & t' & v' & h' & k & kl & Kp & G & R & Mv).
    set (y := mk_point U' (at2 (m_K s') no) (at2 Kp no) t' v' (at2 (m_A1 s') na) (at4 (m_A2 s') na) (m_E0 s')).
    assert (Lh : length h = (if enable_diis st then iter - start else 0)) by apply (c_good _ _ _ _ C).
    assert (C' : course iter s (extend tr iter y) h).
    { apply (course_ext iter s tr); auto; [intros j Hj; symmetry; apply extend_old; auto|]. intros NE. clear - Lh NE. destruct (enable_diis st); [|destruct h; [elim NE; reflexivity|discriminate]].
      destruct h; [elim NE; reflexivity|]. cbn [length] in *. lia. }
    assert (GH := G). destruct G.
    destruct (moved_moves iter s (extend tr iter y) h h' (m_U s') k kl Kp y (m_K s') C' Mv) as [Rec Mov]; try reflexivity.
    { apply g_hist. } { apply g_U; lia. } { apply extend_new. } { exact Lh. }
    exists (extend tr iter y), h'. split; [|apply extend_old; lia]. destruct R as ((TA & VA & e & AA & HP & HE) & RZ & HC).
    assert (X : forall i, i <= S iter -> i <= iter \/ i = S iter) by (intros; lia).
    constructor; try rewrite extend_new.
    - exact GH.
    - split; [|split]; reflexivity.
    - intros p q _ _. reflexivity.
    - exact Rec.
    - intros i Hi. destruct (X i Hi) as [Hi'| ->]; [apply (c_rot _ _ _ _ C'); exact Hi'|]. rewrite extend_new. exact g_rot.
    - intros i Hi. destruct (Nat.eq_dec i iter) as [->|Ne]; [exact Mov|]. apply (c_moves _ _ _ _ C'). lia.
    - intros i Hi. destruct (X i) as [Hi'| ->]; [lia|apply (c_solved _ _ _ _ C'); lia|]. rewrite extend_new. exists TA, VA, e, (m_A1 s'), (m_A2 s').
      split; [exact AA|]. split; [exact HP|]. split; [reflexivity|]. split; [reflexivity|]. exact HE.
    - rewrite HC. unfold converged_at. cbv zeta. cbn [Nat.eqb p_T p_V p_D p_D2 y]. apply qlt_true.
    - intros i Hi. destruct (Nat.eq_dec i iter) as [->|Ne]; [|apply (c_not _ _ _ _ C'); lia]. intros Z. apply (c_conv _ _ _ _ C') in Z. congruence.
    - intros _. exact RZ.
  Qed.
  Lemma course_loop rem : forall iter s tr h, (m_conv s = false -> 0 < sz) -> course iter s tr h ->
    outcome (fun r => let '(s', it) := r in exists tr' h', course it s' tr' h' /\ tr' 0 = tr 0 /\ it <= iter + rem /\ (m_conv s' = false -> it = iter + rem)) F
      (mcscf_loop root gelss expm rdms st nalpha nbeta no ni na nv E_core T LDT V no na na rem iter s).
  Proof.
    induction rem as [|rem IH]; intros iter s tr h Hsz C; cbn [mcscf_loop].
    - apply outcome_ret. exists tr, h. split; [exact C|]. split; [reflexivity|]. split; [lia|]. intros _. lia.
    - destruct (m_conv s) eqn:E.
      + apply outcome_ret. exists tr, h. split; [exact C|]. split; [reflexivity|]. split; [lia|]. congruence.
      + eapply outcome_bind; [apply (course_step iter s tr h); auto|]. cbv beta. intros s' (tr' & h' & C' & T0).
        eapply outcome_weaken; [apply (IH (S iter) s' tr' h'); auto|]. cbv beta. intros [s2 it] (tr2 & h2 & C2 & T2 & L2' & L3). exists tr2, h2. split; [exact C2|]. split; [congruence|]. split; [lia|].
        intros Z. specialize (L3 Z). lia.
  Qed.
  (** ** the whole run *)
  Definition result (A1 A2 : list Qc) (r : Qc * list Qc * list Qc * (nat * bool)) : Prop :=
    let '(E, B1, B2, (it, conv)) := r in
    length B1 = L1 /\ length B2 = L2 /\ it <= max_macro_iter st /\ (conv = false -> it = max_macro_iter st) /\
    exists tr, starts ni na nv E_core Tf Vf (tr 0) /\
      (if passed nalpha nbeta na A1 then p_D (tr 0) = at2 A1 na /\ p_D2 (tr 0) = at4 A2 na
       else exists TA VA e C1 C2, active_arrays ni na Tf Vf TA VA /\ Post TA VA e C1 C2 /\ p_D (tr 0) = at2 C1 na /\ p_D2 (tr 0) = at4 C2 na) /\
      (forall i, i < it -> stepped tr i) /\
      (forall i, i <= it -> rotated no (p_U (tr i)) Tf Vf (p_T (tr i)) (p_V (tr i))) /\
      (forall i, 0 < i <= it -> solved ni na E_core Post (tr i)) /\
      (forall i, i < it -> ~ converged_at root (orb_grad_tol st) ni na nv i (tr i)) /\
      (conv = true <-> converged_at root (orb_grad_tol st) ni na nv it (tr it)) /\
      (0 < it -> root (inject sz) <> 0%Qc) /\ p_D (tr it) = at2 B1 na /\ p_D2 (tr it) = at4 B2 na /\ p_E (tr it) = E.
  Lemma gradient_none t v D D2 : sz = 0 -> gradient_norm2 ni na nv t v D D2 = 0%Qc.
  Proof.
    intros Z. change (pair_sum ni na nv (fun p q => orbital_gradient ni na t v D D2 p q * orbital_gradient ni na t v D D2 p q)%Qc = 0%Qc).
    rewrite <- (rot_sum ni na nv (fun _ => 0%Qc)).
    - rewrite Z. reflexivity.
    - intros p q R. pose proof (rot_index_bound _ _ _ _ _ R). lia.
  Qed.
  Lemma run_out A1 A2 : length A1 = L1 -> length A2 = L2 -> 0 < sz \/ (root 0 < orb_grad_tol st)%Qc ->
    outcome (result A1 A2) F (mcscf_impl root gelss expm rdms st nalpha nbeta no ni na nv E_core T LDT V no na na A1 A2).
  Proof.
    intros HA1 HA2 Hsz. unfold mcscf_impl. eapply outcome_bind.
    { eapply (start_out root rdms st nalpha nbeta no ni na nv E_core T LDT V L1 L2) with (F := F) (PX := PX) (Post := Post); eassumption. }
    cbv beta. intros s (G & HE & HD & HC).
    set (x := mk_point identity (at2 (m_K s) no) (at2 (m_K s) no) Tf Vf (at2 (m_A1 s) na) (at4 (m_A2 s) na) (m_E0 s)).
    assert (C : course 0 s (fun _ => x) []).
    { constructor.
      - exact G.
      - split; [|split]; reflexivity.
      - intros p q _ _. reflexivity.
      - intros l Z. cbn [length] in Z. lia.
      - intros i _. exact (g_rot _ _ _ _ _ _ _ _ _ _ _ _ _ _ _ _ _ G).
      - intros i Hi. lia.
      - intros i Hi. lia.
      - rewrite HC. unfold converged_at. cbv zeta. cbn [Nat.eqb p_T p_V p_D p_D2 x]. apply qlt_true.
      - intros i Hi. lia.
      - intros Z. lia. }
    eapply outcome_bind.
    { apply (course_loop (max_macro_iter st) 0 s (fun _ => x) []); [|exact C]. intros NC. destruct (Nat.eq_dec sz 0) as [Z|Z]; [|lia].
      destruct Hsz as [Hsz|Hsz]; [lia|]. rewrite (gradient_none _ _ _ _ Z) in HC. apply qlt_true in Hsz. congruence. }
    cbv beta. intros [s' it] (tr & h & C' & T0 & Hit & Hc). apply outcome_ret. unfold result.
    destruct C'. destruct c_state0 as (SD1 & SD2 & SE).
    split; [exact (g_A1 _ _ _ _ _ _ _ _ _ _ _ _ _ _ _ _ _ c_good0)|]. split; [exact (g_A2 _ _ _ _ _ _ _ _ _ _ _ _ _ _ _ _ _ c_good0)|].
    split; [exact Hit|]. split; [exact Hc|]. exists tr. rewrite T0.
    split; [|split; [|split; [|split; [|split; [|split; [|split; [|split; [|split; [|split]]]]]]]]]; try assumption.
    - unfold starts. rewrite <- Hno. split; [intros p q _ _; reflexivity|]. split; [exact (g_K0 _ _ _ _ _ _ _ _ _ _ _ _ _ _ _ _ _ G eq_refl)|]. split; [reflexivity|]. split; [reflexivity|]. exact HE.
    - unfold x. cbn [p_D p_D2]. destruct (passed nalpha nbeta na A1).
      + destruct HD as [-> ->]. split; reflexivity.
      + destruct HD as (TA & VA & e & AA & HP). exists TA, VA, e, (m_A1 s), (m_A2 s). split; [exact AA|]. split; [exact HP|]. split; reflexivity.
  Qed.
End RUN.
