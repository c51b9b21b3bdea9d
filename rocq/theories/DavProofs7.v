From Coq Require Import QArith Qcanon.
From Verif Require Import Base SD Nondet SlaterCondon Ham HamProofs Asci AsciSort Mem MemProofs Sums SparseSpec CsrView Sparse Spmv Dist Collective CollectiveProofs Diis
  DenseSpec DenseProofs DiisSpec DiisProofs DiisProofs2 RotProofs LinRespProofs ExpandProofs FockMatProofs PSpmvProofs2 Davidson DavSpec DavProofs DavProofs2 DavProofs3 DavProofs4 DavProofs6.
Local Open Scope nat_scope.
Local Opaque allreduce_one allreduce INT_MAX.

Section SIM.
  Variables (root : Qc -> Qc) (syev : nat -> list Qc -> res (list Qc * list Qc)) (Ns : list nat).
  Hypothesis HNs : forall r, r < length Ns -> 0 < nth r Ns 0.
  Hypothesis HP : 0 < length Ns.
  Local Notation NN := (total Ns).
  Local Notation PP := (length Ns).
  Local Notation glue := (@concat Qc).
  Lemma N_pos : 0 < NN.
  Proof. pose proof (start_lt Ns 0 0 HP (HNs 0 HP)). lia. Qed.
  Lemma map_glue_nth V c : nth c (map glue V) [] = glue (nth c V []).
  Proof. change (@nil Qc) with (glue []). apply map_nth. Qed.
  Definition cols (k : nat) (V : list pvec) : Prop := forall c, c < k -> c < length V /\ shaped Ns (nth c V []).
  Lemma cols_serial k V : cols k V -> forall c, c < k -> c < length (map glue V) /\ NN <= length (nth c (map glue V) []).
  Proof. intros H c Hc. destruct (H c Hc) as [L S]. rewrite map_length. split; [exact L|]. rewrite map_glue_nth. rewrite (glue_length _ _ S). apply le_n. Qed.

  (* one pass of the orthogonalisation *)
  Lemma inner_sim K V x inner out : cols K V -> shaped Ns x ->
    ranks Ns (fun r n_ => do Vr <- on_rank r V; do xr <- at_ x r; gemm_t n_ K Vr xr) = Ok inner ->
    allreduce MPI_SUM 0%Qc K inner inner = Ok out ->
    length out = PP /\ forall r, r < PP -> length (nth r out []) = K /\ forall c, c < K -> nth c (nth r out []) 0%Qc = dot NN (glue (nth c V [])) (glue x).
  Proof.
    intros HV Hx HI HA. apply (ranks_inv _ _ _ []) in HI. destruct HI as [LI FI].
    assert (G : forall r, r < PP -> length (nth r inner []) = K /\ forall c, c < K -> nth c (nth r inner []) 0%Qc = dot (nth r Ns 0) (nth r (nth c V []) []) (nth r x [])).
    { intros r Hr. specialize (FI r Hr). apply bind_inv in FI. destruct FI as (Vr & HVr & FI). apply bind_inv in FI. destruct FI as (xr & Hxr & FI).
      apply on_rank_inv in HVr. destruct HVr as [_ HVr]. apply (at_inv _ _ _ []) in Hxr. destruct Hxr as [_ <-].
      apply gemm_t_inv in FI. destruct FI as (_ & L & FI). split; [exact L|]. intros c Hc. rewrite FI, HVr by exact Hc. reflexivity. }
    apply allreduce_inv in HA; [|intros r Hr; rewrite LI in Hr; apply G; exact Hr]. rewrite LI in HA. destruct HA as [LO FO].
    split; [exact LO|]. intros r Hr. destruct (FO r Hr) as [L F]. split; [exact L|]. intros c Hc. rewrite F by exact Hc.
    destruct (HV c Hc) as [_ Sc]. rewrite (dot_glue _ _ _ Sc Hx). apply Sigma_ext. intros r' Hr'. apply G; assumption.
  Qed.
  Lemma gemm_n_sim K a b V C cs Bs x y : cols K V -> shaped Ns x -> K <= length cs ->
    (forall r, r < PP -> nth r Bs 0%Qc = b) ->
    (forall r, r < PP -> K <= length (nth r C []) /\ forall c, c < K -> nth c (nth r C []) 0%Qc = nth c cs 0%Qc) ->
    (forall r, r < PP -> exists Vr, on_rank r V = Ok Vr /\ gemm_n (nth r Ns 0) K a Vr (nth r C []) (nth r Bs 0%Qc) (nth r x []) = Ok (nth r y [])) ->
    length y = PP ->
    shaped Ns y /\ gemm_n NN K a (map glue V) cs b (glue x) = Ok (glue y).
  Proof.
    intros HV Hx Hcs HB HC F Ly.
    assert (G : forall r, r < PP -> length (nth r y []) = nth r Ns 0 /\ forall j, j < nth r Ns 0 ->
      nth j (nth r y []) 0%Qc = (a * Sigma K (fun l => nth j (nth r (nth l V []) []) 0 * nth l cs 0) + b * nth j (nth r x []) 0)%Qc).
    { intros r Hr. destruct (F r Hr) as (Vr & HVr & E). apply on_rank_inv in HVr. destruct HVr as [_ HVr].
      apply gemm_n_inv in E. destruct E as (_ & L & E). split; [exact L|]. intros j Hj. rewrite E by exact Hj. rewrite HB by exact Hr.
      f_equal. f_equal. apply Sigma_ext. intros l Hl. rewrite HVr. destruct (HC r Hr) as [_ Hc]. rewrite Hc by exact Hl. reflexivity. }
    assert (Sy : shaped Ns y) by (split; [exact Ly|intros r Hr; apply G; exact Hr]).
    split; [exact Sy|].
    destruct (gemm_n_ok NN K a (map glue V) cs b (glue x) N_pos (cols_serial K V HV)) as (z & Ez).
    { exact Hcs. } { rewrite (glue_length _ _ Hx). apply le_n. }
    rewrite Ez. f_equal. destruct (gemm_n_inv _ _ _ _ _ _ _ _ Ez) as (_ & Lz & Fz). apply (glue_ext Ns); [exact Sy|exact Lz|].
    intros r j Hr Hj. rewrite Fz by (apply start_lt; assumption). destruct (G r Hr) as [_ E]. rewrite E by exact Hj.
    rewrite (glue_nth Ns) by assumption. f_equal. f_equal. apply Sigma_ext. intros l Hl. destruct (HV l Hl) as [_ Sl].
    rewrite map_glue_nth. rewrite (glue_nth Ns) by assumption. reflexivity.
  Qed.
  Lemma gemm_t_serial K V x out : cols K V -> shaped Ns x -> length out = K -> (forall c, c < K -> nth c out 0%Qc = dot NN (glue (nth c V [])) (glue x)) ->
    gemm_t NN K (map glue V) (glue x) = Ok out.
  Proof.
    intros HV Hx L F. destruct (gemm_t_ok NN K (map glue V) (glue x) N_pos (cols_serial K V HV)) as (z & Ez).
    { rewrite (glue_length _ _ Hx). apply le_n. }
    rewrite Ez. f_equal. destruct (gemm_t_inv _ _ _ _ _ Ez) as (_ & Lz & Fz). apply (nth_ext' _ _ 0%Qc); [lia|].
    intros c Hc. rewrite Lz in Hc. rewrite Fz, F, map_glue_nth by exact Hc. reflexivity.
  Qed.
  Lemma pass_sim K V x inner out y : cols K V -> shaped Ns x ->
    ranks Ns (fun r n_ => do Vr <- on_rank r V; do xr <- at_ x r; gemm_t n_ K Vr xr) = Ok inner ->
    allreduce MPI_SUM 0%Qc K inner inner = Ok out ->
    ranks Ns (fun r n_ => do Vr <- on_rank r V; do xr <- at_ x r; do c <- at_ out r; gemm_n n_ K (- (1))%Qc Vr c 1%Qc xr) = Ok y ->
    shaped Ns y /\ exists s, gemm_t NN K (map glue V) (glue x) = Ok s /\ gemm_n NN K (- (1))%Qc (map glue V) s 1%Qc (glue x) = Ok (glue y).
  Proof.
    intros HV Hx HI HA HY. destruct (inner_sim _ _ _ _ _ HV Hx HI HA) as [LO FO]. apply (ranks_inv _ _ _ []) in HY. destruct HY as [LY FY].
    destruct (gemm_n_sim K (- (1))%Qc 1%Qc V out (nth 0 out []) (map (fun _ => 1%Qc) Ns) x y HV Hx) as [Sy E].
    - destruct (FO 0 HP) as [L _]. lia.
    - intros r Hr. rewrite (nth_indep _ _ 1%Qc) by (rewrite map_length; exact Hr). rewrite (map_nth (fun _ => 1%Qc) Ns 0). reflexivity.
    - intros r Hr. destruct (FO r Hr) as [L F]. split; [lia|]. intros c Hc. rewrite F by exact Hc. destruct (FO 0 HP) as [_ F0]. rewrite F0 by exact Hc. reflexivity.
    - intros r Hr. specialize (FY r Hr). apply bind_inv in FY. destruct FY as (Vr & HVr & FY). apply bind_inv in FY. destruct FY as (xr & Hxr & FY).
      apply bind_inv in FY. destruct FY as (c & Hc & FY). exists Vr. split; [exact HVr|].
      apply (at_inv _ _ _ []) in Hxr, Hc. destruct Hxr as [_ <-]. destruct Hc as [_ <-].
      rewrite (nth_indep _ _ 1%Qc) by (rewrite map_length; exact Hr). rewrite (map_nth (fun _ => 1%Qc) Ns 0). exact FY.
    - exact LY.
    - split; [exact Sy|]. exists (nth 0 out []). split; [|exact E]. destruct (FO 0 HP) as [L F]. apply gemm_t_serial; assumption.
  Qed.
  Lemma dots_sim x dots out : shaped Ns x -> ranks Ns (fun r n_ => do xr <- at_ x r; dot_ n_ xr xr) = Ok dots -> allreduce_one MPI_SUM 0%Qc dots = Ok out ->
    out = repeat (dot NN (glue x) (glue x)) PP.
  Proof.
    intros Hx HD HA. apply (ranks_inv _ _ _ 0%Qc) in HD. destruct HD as [L F]. pose proof (eq_trans (eq_sym (allreduce_one_ok MPI_SUM 0%Qc dots)) HA) as EA. clear HA. injection EA as <-.
    apply (nth_ext' _ _ 0%Qc); [rewrite map_length, repeat_length; exact L|]. intros r Hr. rewrite map_length in Hr.
    rewrite (nth_indep _ _ (MPI_SUM dots)) by (rewrite map_length; exact Hr). rewrite (map_nth (fun _ => MPI_SUM dots) dots 0%Qc).
    rewrite (nth_indep (repeat _ _) _ (dot NN (glue x) (glue x))) by (rewrite repeat_length; lia). rewrite nth_repeat.
    rewrite mpi_sum_nth, L. rewrite (dot_glue _ _ _ Hx Hx). apply Sigma_ext. intros r' Hr'.
    specialize (F r' Hr'). apply bind_inv in F. destruct F as (xr & Hxr & F). apply (at_inv _ _ _ []) in Hxr. destruct Hxr as [_ <-]. apply dot_inv in F. exact F.
  Qed.
  Lemma dot_serial x : shaped Ns x -> dot_ NN (glue x) (glue x) = Ok (dot NN (glue x) (glue x)).
  Proof. intros H. apply dot__ok; rewrite (glue_length _ _ H); apply le_n. Qed.
  Lemma nth_rep {A} n r (x d : A) : r < n -> nth r (repeat x n) d = x.
  Proof. intros H. rewrite (nth_indep _ _ x) by (rewrite repeat_length; exact H). apply nth_repeat. Qed.
  Lemma gs_sim K V x y : cols K V -> shaped Ns x -> p_gram_schmidt root Ns K V x = Ok y ->
    shaped Ns y /\ gram_schmidt root NN K (map glue V) (glue x) = Ok (glue y).
  Proof.
    intros HV Hx H. unfold p_gram_schmidt in H.
    apply bind_inv in H. destruct H as (i1 & H1 & H). apply bind_inv in H. destruct H as (o1 & H2 & H). apply bind_inv in H. destruct H as (x1 & H3 & H).
    destruct (pass_sim _ _ _ _ _ _ HV Hx H1 H2 H3) as (S1 & s1 & E1 & E2).
    apply bind_inv in H. destruct H as (i2 & H4 & H). apply bind_inv in H. destruct H as (o2 & H5 & H). apply bind_inv in H. destruct H as (x2 & H6 & H).
    destruct (pass_sim _ _ _ _ _ _ HV S1 H4 H5 H6) as (S2 & s2 & E3 & E4).
    apply bind_inv in H. destruct H as (d & H7 & H). apply bind_inv in H. destruct H as (q & H8 & H).
    apply (dots_sim _ _ _ S2 H7) in H8. subst q. apply (ranks_inv _ _ _ []) in H. destruct H as [LY FY].
    unfold gram_schmidt. rewrite E1. cbn [bind]. rewrite E2. cbn [bind]. rewrite E3. cbn [bind]. rewrite E4. cbn [bind].
    rewrite dot_serial by exact S2. cbn [bind].
    assert (G : forall r, r < PP -> length (nth r y []) = nth r Ns 0 /\ exists inv, fdiv 1 (root (dot NN (glue x2) (glue x2))) = Ok inv /\
       forall j, j < nth r Ns 0 -> nth j (nth r y []) 0%Qc = (inv * nth j (nth r x2 []) 0)%Qc).
    { intros r Hr. specialize (FY r Hr). apply bind_inv in FY. destruct FY as (xr & Hxr & FY). apply bind_inv in FY. destruct FY as (q & Hq & FY).
      apply bind_inv in FY. destruct FY as (inv & Hi & FY). apply (at_inv _ _ _ []) in Hxr. destruct Hxr as [_ <-].
      apply (at_inv _ _ _ 0%Qc) in Hq. destruct Hq as [_ Hq]. rewrite nth_rep in Hq by exact Hr. subst q.
      apply scal_inv in FY. destruct FY as [L F]. split; [exact L|]. exists inv. auto. }
    assert (Sy : shaped Ns y) by (split; [exact LY|intros r Hr; apply G; exact Hr]).
    split; [exact Sy|]. destruct (G 0 HP) as (_ & inv & Ei & _). rewrite Ei. cbn [bind].
    destruct (scal_ok NN inv (glue x2)) as (z & Ez); [rewrite (glue_length _ _ S2); apply le_n|].
    rewrite Ez. f_equal. apply scal_inv in Ez. destruct Ez as [Lz Fz]. apply (glue_ext Ns); [exact Sy|exact Lz|].
    intros r j Hr Hj. rewrite Fz by (apply start_lt; assumption). destruct (G r Hr) as (_ & inv' & Ei' & F). rewrite Ei in Ei'. injection Ei' as <-.
    rewrite F by exact Hj. rewrite (glue_nth Ns) by assumption. reflexivity.
  Qed.
  Lemma gram_sim K X AX Cs : cols K X -> cols K AX -> ranks Ns (fun r n_ => do V <- on_rank r X; do AV <- on_rank r AX; gemm_tn n_ K V AV) = Ok Cs ->
    forall out, allreduce MPI_SUM 0%Qc (K * K) Cs Cs = Ok out -> length out = PP /\ (forall r, r < PP -> length (nth r out []) = K * K) /\
      gemm_tn NN K (map glue X) (map glue AX) = Ok (nth 0 out []).
  Proof.
    intros HX HAX HC out HA. apply (ranks_inv _ _ _ []) in HC. destruct HC as [LC FC].
    assert (G : forall r, r < PP -> length (nth r Cs []) = K * K /\ forall i j, i < K -> j < K ->
       at2 (nth r Cs []) K i j = dot (nth r Ns 0) (nth r (nth i X []) []) (nth r (nth j AX []) [])).
    { intros r Hr. specialize (FC r Hr). apply bind_inv in FC. destruct FC as (V & HV & FC). apply bind_inv in FC. destruct FC as (AV & HAV & FC).
      apply on_rank_inv in HV, HAV. destruct HV as [_ HV]. destruct HAV as [_ HAV]. apply gemm_tn_inv in FC. destruct FC as [L F]. split; [exact L|].
      intros i j Hi Hj. rewrite F, HV, HAV by assumption. reflexivity. }
    apply allreduce_inv in HA; [|intros r Hr; rewrite LC in Hr; apply G; exact Hr]. rewrite LC in HA. destruct HA as [LO FO].
    split; [exact LO|]. split; [intros r Hr; apply FO; exact Hr|].
    destruct (gemm_tn_ok NN K (map glue X) (map glue AX) N_pos (cols_serial K X HX) (cols_serial K AX HAX)) as (M & EM).
    rewrite EM. f_equal. destruct (gemm_tn_inv _ _ _ _ _ EM) as [LM FM]. destruct (FO 0 HP) as [L0 F0].
    apply (nth_ext' _ _ 0%Qc); [lia|]. intros p Hp. rewrite LM in Hp. rewrite F0 by exact Hp.
    assert (KP : 0 < K) by (destruct K; [cbn in Hp; lia|lia]).
    assert (Hi : p mod K < K) by (apply Nat.mod_upper_bound; lia). assert (Hj : p / K < K) by (apply Nat.div_lt_upper_bound; lia).
    assert (Ep : p = p mod K + p / K * K) by (rewrite (Nat.div_mod p K) at 1 by lia; lia).
    specialize (FM _ _ Hi Hj). unfold at2 in FM. rewrite <- Ep in FM. rewrite FM, !map_glue_nth.
    destruct (HX _ Hi) as [_ S1]. destruct (HAX _ Hj) as [_ S2]. rewrite (dot_glue _ _ _ S1 S2). apply Sigma_ext. intros r Hr.
    destruct (G r Hr) as [_ E]. specialize (E _ _ Hi Hj). unfold at2 in E. rewrite <- Ep in E. symmetry. exact E.
  Qed.
  Lemma rr_sim K X AX W W' C : 0 < K -> cols K X -> cols K AX -> length W = PP -> p_rayleigh_ritz syev Ns K X AX W = Ok (W', C) ->
    length W' = PP /\ length C = PP /\ exists Ws Cs, rayleigh_ritz syev NN K (map glue X) (map glue AX) = Ok (Ws, Cs) /\ 0 < length Ws /\ K <= length Cs /\
      (forall r, r < PP -> 0 < length (nth r W' []) /\ nth 0 (nth r W' []) 0%Qc = nth 0 Ws 0%Qc) /\
      (forall r, r < PP -> K <= length (nth r C []) /\ forall c, c < K -> nth c (nth r C []) 0%Qc = nth c Cs 0%Qc).
  Proof.
    intros KP HX HAX LW H. unfold p_rayleigh_ritz in H.
    apply bind_inv in H. destruct H as (C1 & H1 & H). apply bind_inv in H. destruct H as (C2 & H2 & H).
    destruct (gram_sim _ _ _ _ HX HAX H1 _ H2) as (LO & LK & EM).
    apply bind_inv in H. destruct H as (C0 & H3 & H). apply (at_inv _ _ _ []) in H3. destruct H3 as [_ H3].
    apply bind_inv in H. destruct H as ([Ws Cs] & H4 & H). cbn [fst snd] in H.
    apply bind_inv in H. destruct H as (W1 & H5 & H). apply bind_inv in H. destruct H as (C3 & H6 & H).
    apply bind_inv in H. destruct H as (W2 & H7 & H). apply bind_inv in H. destruct H as (C4 & H8 & H). injection H as -> ->.
    apply (put_nth []) in H5, H6. destruct H5 as (_ & L5 & F5). destruct H6 as (_ & L6 & F6).
    apply bcast_inv in H7, H8. destruct H7 as (L7 & LW0 & F7). destruct H8 as (L8 & LC0 & F8).
    rewrite F5 in LW0. cbn in LW0. rewrite F6 in LC0. cbn in LC0. 
    split; [lia|]. split; [lia|]. exists Ws, Cs. split; [|split; [lia|split; [nia|split]]].
    - unfold rayleigh_ritz. rewrite EM. cbn [bind]. rewrite H3. exact H4.
    - intros r Hr. destruct (F7 r) as [L F]; [lia|]. split; [lia|]. rewrite F by lia. rewrite F5. reflexivity.
    - intros r Hr. destruct (F8 r) as [L F]; [lia|]. split; [nia|]. intros c Hc. rewrite F by nia. rewrite F6. reflexivity.
  Qed.
End SIM.
