(** One orbital rotation of the optimisation. *)
From Coq Require Import QArith Qcanon Bool.
From Verif Require Import Base SD Sums Ham Nondet Asci AsciSort Mem MemProofs Dense DenseSpec DenseProofs FockMatProofs RotProofs HessProofs LinRespProofs ExpandProofs
  Diis DiisSpec DiisProofs DiisProofs2 Davidson DavProofs DavProofs2 DavProofs4 DenseGlue Mcscf McscfSpec McscfProofs McscfProofs2.
Local Open Scope nat_scope.

Definition skew (n : nat) (K : list Qc) : Prop := length K = n * n /\ antisymmetric n (at2 K n).
Lemma skew_zero n : skew n (repeat 0%Qc (n * n)).
Proof. split; [apply repeat_length|]. intros i j Hi Hj. unfold at2. rewrite !nth_repeat. ring. Qed.
Lemma cell_lt n i j : i < n -> j < n -> i + j * n < n * n.
Proof. intros Hi Hj. pose proof (cell n n i j). nia. Qed.
Lemma skew_axpy n a x y z : skew n x -> skew n y -> axpy (n * n) a x y = Ok z ->
  skew n z /\ forall i j, i < n -> j < n -> at2 z n i j = (at2 y n i j + a * at2 x n i j)%Qc.
Proof.
  intros [Lx Ax] [Ly Ay] E. destruct (axpy_ok (n * n) a x y) as (z' & E' & L & R); try lia. rewrite E in E'. injection E' as <-.
  assert (V : forall i j, i < n -> j < n -> at2 z n i j = (at2 y n i j + a * at2 x n i j)%Qc) by (intros i j Hi Hj; apply R; apply cell_lt; auto).
  split; auto. split; auto. intros i j Hi Hj. rewrite !V by auto. rewrite (Ax i j), (Ay i j) by auto. ring.
Qed.
Lemma skew_axpy_ok n a x y : skew n x -> skew n y -> exists z, axpy (n * n) a x y = Ok z /\ skew n z /\ forall i j, i < n -> j < n -> at2 z n i j = (at2 y n i j + a * at2 x n i j)%Qc.
Proof. intros Hx Hy. destruct (axpy_ok (n * n) a x y) as (z & E & _); [destruct Hx; lia|apply Hy|]. exists z. split; auto. apply skew_axpy; auto. Qed.
Lemma skew_scal_ok n a x : skew n x -> exists z, scal (n * n) a x = Ok z /\ skew n z /\ forall i j, i < n -> j < n -> at2 z n i j = (a * at2 x n i j)%Qc.
Proof.
  intros [Lx Ax]. destruct (scal_ok (n * n) a x) as (z & E); [lia|]. exists z. split; auto. apply scal_inv in E. destruct E as [L R].
  assert (V : forall i j, i < n -> j < n -> at2 z n i j = (a * at2 x n i j)%Qc) by (intros i j Hi Hj; apply R; apply cell_lt; auto).
  split; auto. split; auto. intros i j Hi Hj. rewrite !V by auto. rewrite (Ax i j) by auto. ring.
Qed.

(** ** extrapolation *)
Definition stored (n sz : nat) (p : list Qc * list Qc) : Prop := skew n (fst p) /\ length (snd p) = sz.
Lemma combination_skew n c vs : (forall v, In v vs -> skew n v) -> forall i j, i < n -> j < n ->
  (combination c vs (j + i * n) = - combination c vs (i + j * n))%Qc.
Proof.
  intros H i j Hi Hj. unfold combination. rewrite <- Sigma_opp. apply Sigma_ext. intros k Hk.
  destruct (H (nth k vs [])) as [_ A]; [apply nth_In; exact Hk|]. specialize (A i j Hi Hj). unfold at2 in A. rewrite A. ring.
Qed.
Lemma extrapolate_out gelss nmax ps n sz (F : err -> Prop) : sized gelss -> (forall k B b e, gelss k B b = Err e -> F e) ->
  (forall p, In p ps -> stored n sz p) -> ps <> [] ->
  outc (fun x => skew n x) F (extrapolate gelss (mk_diis nmax ps)).
Proof.
  intros HS HF Hp Hne. destruct (extrapolate_ok gelss nmax ps (n * n) sz) as (B & b & _ & _ & _ & EE & EO); auto.
  { intros p Hin. destruct (Hp p Hin) as [[L _] L2]. auto. }
  destruct (gelss (length ps + 1) B b) as [c|e] eqn:Eg.
  - destruct (EO c eq_refl) as (x & E & L & R). { apply HS in Eg. lia. }
    rewrite E. cbn [outc]. split; auto. intros i j Hi Hj. unfold at2. rewrite !R by (apply cell_lt; auto).
    apply (combination_skew n _ _). intros v Hv. apply in_map_iff in Hv. destruct Hv as (p & <- & Hin). apply Hp. exact Hin. auto. auto.
  - rewrite (EE e eq_refl). cbn [outc]. eapply HF; eauto.
Qed.
Lemma add_vector_history n h v e : 0 < n -> add_vector (mk_diis n (lastn n h)) v e = Ok (mk_diis n (lastn n (h ++ [(v, e)]))).
Proof.
  intros Hn. pose proof (add_all_ok n [(v, e)] Hn h) as H. unfold add_all in H. cbn [foldM fst snd] in H.
  destruct (add_vector (mk_diis n (lastn n h)) v e); cbn [bind] in H; exact H.
Qed.

Section ROTATE.
  Variables (gelss : nat -> list Qc -> list Qc -> res (list Qc)) (expm : nat -> list Qc -> res (list Qc)) (st : settings) (no ni na nv LDD1 : nat).
  Hypothesis Hno : no = ni + na + nv.
  Hypothesis Hn0 : 0 < no.
  Hypothesis Hsized : sized gelss.
  Hypothesis Hexp : exponential expm.
  Hypothesis Hkeep : enable_diis st = true -> 0 < diis_nkeep st.
  Variable F : err -> Prop.
  Hypothesis HFn : F NonFinite.
  Hypothesis HFg : forall k B b e, gelss k B b = Err e -> F e.
  Hypothesis HFe : forall n M e, expm n M = Err e -> F e.
  Local Notation sz := (rot_size ni na nv).

  (* the arrays have the sizes they were created with *)
  Record sizes (s : mstate) : Prop := mk_sizes {
    z_A1 : fits2 (m_A1 s) LDD1 na na;
    z_TA : length (m_TA s) = na * na; z_VA : length (m_VA s) = na * na * (na * na);
    z_Fi : length (m_Fi s) = no * no; z_Fa : length (m_Fa s) = no * no; z_F : length (m_F s) = no * no;
    z_Q : length (m_Q s) = na * no; z_OG : length (m_OG s) = sz;
    z_T : length (m_T s) = no * no; z_V : length (m_V s) = no * no * (no * no); z_U : length (m_U s) = no * no
  }.
  (* K_total is antisymmetric and the DIIS object holds the last of the accumulated steps *)
  Definition history (iter : nat) (s : mstate) (h : list (list Qc * list Qc)) : Prop :=
    skew no (m_K s) /\ m_diis s = mk_diis (diis_nkeep st) (lastn (diis_nkeep st) h) /\ (forall p, In p h -> stored no sz p) /\
    length h = (if enable_diis st then iter - diis_start_iter st else 0).
  Definition prev_U (iter : nat) (s : mstate) : nat -> nat -> Qc := if iter =? 0 then identity else at2 (m_U s) no.
  Definition step_hessian (s : mstate) : nat -> nat -> Qc := diagonal_hessian ni na (at2 (m_Fi s) no) (at2 (m_Fa s) no) (at2 (m_F s) no) (at2 (m_A1 s) LDD1).
  (* what one rotation does *)
  Record moved (iter : nat) (s : mstate) (h h' : list (list Qc * list Qc)) (K U : list Qc) (k kl Kp : list Qc) : Prop := mk_moved {
    v_k : length k = sz;
    v_newton : forall p q, rotates ni na nv p q -> step_hessian s p q <> 0%Qc /\
      nth (rot_index ni na nv p q) k 0%Qc = (- nth (rot_index ni na nv p q) (m_OG s) 0 / step_hessian s p q)%Qc;
    v_limit : limited (max_orbital_step st) sz (fun x => nth x k 0%Qc) (fun x => nth x kl 0%Qc);
    v_sum : forall p q, p < no -> q < no -> at2 Kp no p q = (at2 (m_K s) no p q + rot_matrix ni na nv kl p q)%Qc;
    v_hist : h' = (if enable_diis st && (diis_start_iter st <=? iter) then h ++ [(Kp, m_OG s)] else h);
    v_diis : if enable_diis st && (diis_start_iter st + 2 <=? iter) then extrapolate gelss (mk_diis (diis_nkeep st) (lastn (diis_nkeep st) h')) = Ok K else K = Kp;
    v_rot : exists M X, length M = no * no /\ (forall i j, i < no -> j < no -> at2 M no i j = (at2 (m_K s) no i j - at2 K no i j)%Qc) /\
      expm no M = Ok X /\ same2 no (at2 U no) (product no (prev_U iter s) (at2 X no))
  }.

  Lemma sz_eq : nv * (ni + na) + na * ni = sz.
  Proof. unfold rot_size. lia. Qed.
  Lemma product_id A : same2 no (product no identity A) A.
  Proof.
    intros i j Hi Hj. unfold product. rewrite (Sigma_ext no _ (fun l => identity l i * A l j)%Qc); [apply (Sigma_id no i (fun l => A l j)); auto|].
    intros l _. rewrite identity_sym. reflexivity.
  Qed.

  Lemma rotate_out iter s h : 0 < sz -> sizes s -> history iter s h -> (0 < iter -> orthogonal no (at2 (m_U s) no)) -> (iter = 0 -> same2 no (at2 (m_K s) no) (fun _ _ => 0%Qc)) ->
    outc (fun KUd => let '(K, U, d) := KUd in skew no K /\ length U = no * no /\ orthogonal no (at2 U no) /\
            exists h' k kl Kp, d = mk_diis (diis_nkeep st) (lastn (diis_nkeep st) h') /\ (forall p, In p h' -> stored no sz p) /\
              length h' = (if enable_diis st then S iter - diis_start_iter st else 0) /\ moved iter s h h' K U k kl Kp) F
         (rotate gelss expm st no ni na nv LDD1 iter s).
  Proof.
    intros Hsz Z (SK & Ed & Hh & Lh) OU K0. unfold rotate. rewrite sz_eq. destruct Z.
    eapply outc_bind; [apply precond_out|]; auto.
    { rewrite <- Hno. apply fits2_packed; auto. } { rewrite <- Hno. apply fits2_packed; auto. } { rewrite <- Hno. apply fits2_packed; auto. }
    { lia. } { apply repeat_length. }
    cbv beta. fold (step_hessian s). intros k [Lk Rk].
    eapply outc_bind; [apply (limited_out (max_orbital_step st) sz k F); auto|]. cbv beta. intros kl [Lkl Rkl].
    destruct (unpack_zero ni na nv kl) as (Ks & EKs & LKs & RKs); [lia|]. rewrite <- Hno in *. apply (outc_ok _ _ _ _ _ EKs).
    assert (SKs : skew no Ks). { split; auto. intros i j Hi Hj. rewrite !RKs by auto. apply rot_matrix_anti. }
    destruct (skew_axpy_ok no 1%Qc Ks (m_K s)) as (Kp & EKp & SKp & RKp); auto. apply (outc_ok _ _ _ _ _ EKp).
    assert (Vsum : forall p q, p < no -> q < no -> at2 Kp no p q = (at2 (m_K s) no p q + rot_matrix ni na nv kl p q)%Qc).
    { intros p q Hp Hq. rewrite RKp, RKs by auto. ring. }
    set (h' := if enable_diis st && (diis_start_iter st <=? iter) then h ++ [(Kp, m_OG s)] else h).
    assert (Hh' : forall p, In p h' -> stored no sz p).
    { unfold h'. destruct (enable_diis st && (diis_start_iter st <=? iter)); auto. intros p Hp. apply in_app_iff in Hp. destruct Hp as [Hp|[<-|[]]]; auto. split; auto. }
    assert (Lh' : length h' = (if enable_diis st then S iter - diis_start_iter st else 0)).
    { unfold h'. destruct (enable_diis st); cbn [andb]; auto. destruct (Nat.leb_spec (diis_start_iter st) iter) as [G|G]; [rewrite app_length; cbn [length]; lia|lia]. }
    eapply (outc_bind (fun Kd => skew no (fst Kd) /\ snd Kd = mk_diis (diis_nkeep st) (lastn (diis_nkeep st) h') /\
              (if enable_diis st && (diis_start_iter st + 2 <=? iter) then extrapolate gelss (mk_diis (diis_nkeep st) (lastn (diis_nkeep st) h')) = Ok (fst Kd) else fst Kd = Kp))).
    { rewrite Ed. unfold h' in *. destruct (enable_diis st) eqn:ED; cbn [andb] in *; [|cbn [outc fst snd]; auto].
      destruct (Nat.leb_spec (diis_start_iter st) iter) as [G|G]; [|cbn [outc fst snd]; destruct (Nat.leb_spec (diis_start_iter st + 2) iter); [lia|auto]].
      rewrite add_vector_history by auto. cbn [bind]. destruct (Nat.leb_spec (diis_start_iter st + 2) iter); [|cbn [outc fst snd]; auto].
      set (ps := lastn (diis_nkeep st) (h ++ [(Kp, m_OG s)])). assert (PO := extrapolate_out gelss (diis_nkeep st) ps no sz F).
      destruct (extrapolate gelss (mk_diis (diis_nkeep st) ps)) as [x|e] eqn:EX; cbn [bind outc fst snd] in *.
      - split; auto. apply PO; auto. + intros p Hp. apply Hh'. unfold ps, lastn in Hp. rewrite <- (firstn_skipn (length (h ++ [(Kp, m_OG s)]) - diis_nkeep st)). apply in_app_iff. right. exact Hp.
        + apply lastn_ne; auto. intros E. destruct h; discriminate.
      - apply PO; auto. + intros p Hp. apply Hh'. unfold ps, lastn in Hp. rewrite <- (firstn_skipn (length (h ++ [(Kp, m_OG s)]) - diis_nkeep st)). apply in_app_iff. right. exact Hp.
        + apply lastn_ne; auto. intros E. destruct h; discriminate. }
    intros [K d] (SKK & Hd & HK). cbn [fst snd] in *.
    eapply (outc_bind (fun U => length U = no * no /\ orthogonal no (at2 U no) /\ exists M X, length M = no * no /\
        (forall i j, i < no -> j < no -> at2 M no i j = (at2 (m_K s) no i j - at2 K no i j)%Qc) /\ expm no M = Ok X /\ same2 no (at2 U no) (product no (prev_U iter s) (at2 X no)))).
    { unfold prev_U. destruct (Nat.eqb_spec iter 0) as [I0|I0].
      - eapply outc_weaken; [apply rotation_orthogonal; auto; try apply SKK; intros; eapply HFe; eauto|].
        cbv beta. intros U (LU & OrU & M & X & LM & RM & EM & SM). split; auto. split; auto. exists M, X. split; auto. split; [|split; auto].
        + intros i j Hi Hj. rewrite RM, K0 by auto. ring.
        + intros i j Hi Hj. rewrite product_id by auto. apply SM; auto.
      - destruct (skew_axpy_ok no (- (1))%Qc K (m_K s)) as (dK & E1 & S1 & R1); auto. apply (outc_ok _ _ _ _ _ E1).
        destruct (skew_scal_ok no (- (1))%Qc dK S1) as (dK' & E2 & S2 & R2). apply (outc_ok _ _ _ _ _ E2).
        eapply outc_bind; [apply rotation_orthogonal; auto; try apply S2; try apply repeat_length; intros; eapply HFe; eauto|].
        cbv beta. intros Us (LU & OrU & M & X & LM & RM & EM & SM).
        destruct (gemm_ok false no no no (m_U s) 0 no Us 0 no (repeat 0%Qc (no * no)) 0 no) as (U' & EU & LU' & RU & _); auto.
        { intros i l Hi Hl. rewrite z_U0. cbn [plus]. apply cell_lt; auto. } { intros l j Hl Hj. rewrite LU. cbn [plus]. apply cell_lt; auto. }
        { intros i j Hi Hj. rewrite repeat_length. cbn [plus]. apply cell_lt; auto. }
        rewrite EU. cbn [outc]. rewrite repeat_length in LU'.
        assert (SU : same2 no (at2 U' no) (product no (at2 (m_U s) no) (at2 Us no))) by (intros i j Hi Hj; exact (RU i j Hi Hj)).
        split; auto. split.
        + apply (orthogonal_same no (product no (at2 (m_U s) no) (at2 Us no))); [intros i j Hi Hj; symmetry; apply SU; auto|]. apply orthogonal_product; auto. apply OU. lia.
        + exists M, X. split; auto. split; [|split; auto].
          * intros i j Hi Hj. rewrite RM, R2, R1 by auto. ring.
          * intros i j Hi Hj. rewrite SU by auto. unfold product. apply Sigma_ext. intros l Hl. rewrite SM by auto. reflexivity. }
    intros U (LU & OrU & HU). cbn [outc]. split; auto. split; auto. split; auto. exists h', k, kl, Kp. split; auto. split; auto. split; auto.
    constructor; auto.
  Qed.
End ROTATE.
