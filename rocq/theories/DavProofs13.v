(** Where the serial solver returns on the joined vectors, so does the distributed one. *)
From Coq Require Import QArith Qcanon.
From Verif Require Import Base SD Nondet SlaterCondon Ham HamProofs Asci AsciSort Mem MemProofs Sums SparseSpec CsrView Sparse Spmv Dist Collective CollectiveProofs Diis
  DenseSpec DenseProofs DiisSpec DiisProofs DiisProofs2 RotProofs LinRespProofs ExpandProofs FockMatProofs PSpmvProofs2 Davidson DavSpec DavProofs DavProofs2 DavProofs3 DavProofs4 DavProofs6 DavProofs7 DavProofs8.
Local Open Scope nat_scope.
Local Opaque allreduce_one allreduce INT_MAX.

Lemma mapM_ex {A B} (f : A -> res B) l : (forall x, In x l -> exists y, f x = Ok y) -> exists ys, mapM f l = Ok ys.
Proof.
  induction l as [|x l IH]; intros H; [exists []; reflexivity|]. destruct (H x (or_introl eq_refl)) as [y Ey]. destruct IH as [ys E]; [intros z Hz; apply H; right; exact Hz|].
  exists (y :: ys). cbn [mapM]. rewrite Ey. cbn [bind]. rewrite E. reflexivity.
Qed.
Lemma ranks_ex {A} Ns (f : nat -> nat -> res A) : (forall r, r < length Ns -> exists y, f r (nth r Ns 0) = Ok y) -> exists ys, ranks Ns f = Ok ys.
Proof.
  intros H. unfold ranks. apply mapM_ex. intros x Hx. apply (In_nth _ _ (0, 0)) in Hx. destruct Hx as (r & Hr & <-).
  rewrite combine_length, seq_length, Nat.min_id in Hr. rewrite combine_nth by apply seq_length. cbn [fst snd]. rewrite seq_nth by exact Hr. apply H. exact Hr.
Qed.
Lemma allreduce_ex K (bufs : list (list Qc)) : K < Z.to_nat INT_MAX -> (forall r, r < length bufs -> length (nth r bufs []) = K) -> exists out, allreduce MPI_SUM 0%Qc K bufs bufs = Ok out.
Proof.
  intros HK H. Local Transparent allreduce. unfold allreduce. Local Opaque allreduce. pose proof int_max_pos.
  assert (Fb : Forall (fun b => K <= length b) bufs).
  { apply Forall_forall. intros b Hb. apply (In_nth _ _ []) in Hb. destruct Hb as (r & Hr & <-). rewrite H by exact Hr. lia. }
  rewrite allreduce_chunked_ok; [eauto|lia|intros _; exact HK|exact Fb|exact Fb].
Qed.
Lemma bcast_ex n (bufs : list (list Qc)) : 0 < length bufs -> (forall r, r < length bufs -> n <= length (nth r bufs [])) -> exists out, MPI_Bcast 0 n 0 bufs = Ok out.
Proof.
  intros H0 H. unfold MPI_Bcast. rewrite (at_ok _ _ []) by exact H0. cbn [bind].
  assert (SL : forall b : list Qc, n <= length b -> exists s, slice 0 n b = Ok s) by (intros b Hb; unfold slice; cbn [plus]; destruct (Nat.leb_spec n (length b)); [eauto|lia]).
  destruct (SL _ (H 0 H0)) as [s Es]. rewrite Es. cbn [bind].
  destruct (mapM_ex (slice 0 n) bufs) as [ss Ess]; [intros b Hb; apply (In_nth _ _ []) in Hb; destruct Hb as (r & Hr & <-); apply SL, H; exact Hr|].
  rewrite Ess. cbn [bind]. eauto.
Qed.

Lemma bind_go {A B} (m : res A) a (k : A -> res B) : m = Ok a -> bind m k = k a.
Proof. intros ->. reflexivity. Qed.
Lemma bind_ex {A B} (m : res A) a (k : A -> res B) : m = Ok a -> (exists y, k a = Ok y) -> exists y, bind m k = Ok y.
Proof. intros ->. intros H. exact H. Qed.

Section FWD.
  Variables (root : Qc -> Qc) (syev : nat -> list Qc -> res (list Qc * list Qc)) (Ns : list nat).
  Hypothesis HNs : forall r, r < length Ns -> 0 < nth r Ns 0.
  Hypothesis HP : 0 < length Ns.
  Hypothesis HS : forall k M W C, syev k M = Ok (W, C) -> k <= length W /\ k * k <= length C.
  Local Notation NN := (total Ns).
  Local Notation PP := (length Ns).
  Local Notation glue := (@concat Qc).

  Lemma on_rank_ex r V : all_shaped Ns V -> r < PP -> exists Vr, on_rank r V = Ok Vr /\ forall c, c < length V -> c < length Vr /\ nth r Ns 0 <= length (nth c Vr []).
  Proof.
    intros HV Hr. destruct (mapM_ex (fun c => at_ c r) V) as [Vr E].
    { intros c Hc. apply (In_nth _ _ []) in Hc. destruct Hc as (i & Hi & <-). destruct (HV i Hi) as [L _]. rewrite (at_ok _ _ []) by lia. eauto. }
    exists Vr. split; [exact E|]. intros c Hc. destruct (on_rank_inv r V Vr E) as [L F]. split; [lia|]. rewrite F. destruct (HV c Hc) as [_ G]. rewrite G by exact Hr. apply le_n.
  Qed.
  Lemma shaped_at x r : shaped Ns x -> r < PP -> at_ x r = Ok (nth r x []) /\ length (nth r x []) = nth r Ns 0.
  Proof. intros [L F] Hr. split; [apply at_ok; lia|apply F; exact Hr]. Qed.
  Lemma cols_of K V : all_shaped Ns V -> K <= length V -> cols Ns K V.
  Proof. intros HV HK c Hc. split; [lia|apply HV; lia]. Qed.

  Lemma pass_ex K V x : all_shaped Ns V -> K <= length V -> shaped Ns x -> K < Z.to_nat INT_MAX ->
    exists inner out y, ranks Ns (fun r n_ => do Vr <- on_rank r V; do xr <- at_ x r; gemm_t n_ K Vr xr) = Ok inner /\
      allreduce MPI_SUM 0%Qc K inner inner = Ok out /\
      ranks Ns (fun r n_ => do Vr <- on_rank r V; do xr <- at_ x r; do c <- at_ out r; gemm_n n_ K (- (1))%Qc Vr c 1%Qc xr) = Ok y.
  Proof.
    intros HV HK Hx HI.
    destruct (ranks_ex Ns (fun r n_ => do Vr <- on_rank r V; do xr <- at_ x r; gemm_t n_ K Vr xr)) as [inner E1].
    { intros r Hr. destruct (on_rank_ex r V HV Hr) as (Vr & EV & FV). rewrite EV. cbn [bind]. destruct (shaped_at x r Hx Hr) as [Ex Lx]. rewrite Ex. cbn [bind].
      apply gemm_t_ok; [apply HNs; exact Hr|intros c Hc; apply FV; lia|lia]. }
    destruct (allreduce_ex K inner HI) as [out E2].
    { intros r Hr. destruct (ranks_inv _ _ _ [] E1) as [L F]. rewrite L in Hr. specialize (F r Hr). apply bind_inv in F. destruct F as (Vr & _ & F).
      apply bind_inv in F. destruct F as (xr & _ & F). apply gemm_t_inv in F. tauto. }
    destruct (inner_sim Ns _ _ _ _ _ (cols_of K V HV HK) Hx E1 E2) as [LO FO].
    destruct (ranks_ex Ns (fun r n_ => do Vr <- on_rank r V; do xr <- at_ x r; do c <- at_ out r; gemm_n n_ K (- (1))%Qc Vr c 1%Qc xr)) as [y E3].
    { intros r Hr. destruct (on_rank_ex r V HV Hr) as (Vr & EV & FV). rewrite EV. cbn [bind]. destruct (shaped_at x r Hx Hr) as [Ex Lx]. rewrite Ex. cbn [bind].
      rewrite (at_ok _ _ []) by lia. cbn [bind]. apply gemm_n_ok; [apply HNs; exact Hr|intros c Hc; apply FV; lia| |lia]. destruct (FO r Hr) as [L _]. lia. }
    eauto 8.
  Qed.
  Lemma pgs_ex K V x y : all_shaped Ns V -> K <= length V -> shaped Ns x -> K < Z.to_nat INT_MAX ->
    gram_schmidt root NN K (map glue V) (glue x) = Ok y -> exists y', p_gram_schmidt root Ns K V x = Ok y' /\ shaped Ns y' /\ glue y' = y.
  Proof.
    intros HV HK Hx HI HG. pose proof (cols_of K V HV HK) as KV.
    enough (EX : exists y', p_gram_schmidt root Ns K V x = Ok y').
    { destruct EX as [y' E]. exists y'. split; [exact E|]. destruct (gs_sim root Ns HNs HP K V x y' KV Hx E) as [Sy E']. split; [exact Sy|]. congruence. }
    unfold p_gram_schmidt.
    destruct (pass_ex K V x HV HK Hx HI) as (i1 & o1 & x1 & E1 & E2 & E3). refine (bind_ex _ _ _ E1 _). cbv beta. refine (bind_ex _ _ _ E2 _). cbv beta. refine (bind_ex _ _ _ E3 _). cbv beta.
    destruct (pass_sim Ns HNs HP K V x i1 o1 x1 KV Hx E1 E2 E3) as (S1 & s1 & F1 & F2).
    destruct (pass_ex K V x1 HV HK S1 HI) as (i2 & o2 & x2 & E4 & E5 & E6). refine (bind_ex _ _ _ E4 _). cbv beta. refine (bind_ex _ _ _ E5 _). cbv beta. refine (bind_ex _ _ _ E6 _). cbv beta.
    destruct (pass_sim Ns HNs HP K V x1 i2 o2 x2 KV S1 E4 E5 E6) as (S2 & s2 & F3 & F4).
    destruct (ranks_ex Ns (fun r n_ => do xr <- at_ x2 r; dot_ n_ xr xr)) as [dots E7].
    { intros r Hr. destruct (shaped_at x2 r S2 Hr) as [Ex Lx]. rewrite Ex. cbn [bind]. eexists. apply dot__ok; lia. }
    refine (bind_ex _ _ _ E7 _). cbv beta. assert (E8 : exists a, allreduce_one MPI_SUM 0%Qc dots = Ok a) by (eexists; apply allreduce_one_ok). destruct E8 as [a E8]. refine (bind_ex _ _ _ E8 _). cbv beta.
    pose proof (dots_sim Ns HP _ _ _ S2 E7 E8) as ED. rewrite ED. clear E8 ED.
    unfold gram_schmidt in HG. rewrite F1 in HG. cbn [bind] in HG. rewrite F2 in HG. cbn [bind] in HG. rewrite F3 in HG. cbn [bind] in HG. rewrite F4 in HG. cbn [bind] in HG.
    rewrite dot_serial in HG by exact S2. cbn [bind] in HG. apply bind_inv in HG. destruct HG as (inv & Ei & _).
    apply ranks_ex. intros r Hr. destruct (shaped_at x2 r S2 Hr) as [Ex Lx]. rewrite Ex. cbn [bind].
    rewrite (at_ok _ _ 0%Qc) by (rewrite repeat_length; exact Hr). cbn [bind]. rewrite nth_rep by exact Hr. rewrite Ei. cbn [bind]. apply scal_ok. lia.
  Qed.
  Lemma prr_ex K X AX W Ws Cs : 0 < K -> all_shaped Ns X -> all_shaped Ns AX -> K <= length X -> K <= length AX -> K * K < Z.to_nat INT_MAX ->
    length W = PP -> (forall r, 0 < r < PP -> K <= length (nth r W [])) ->
    rayleigh_ritz syev NN K (map glue X) (map glue AX) = Ok (Ws, Cs) ->
    exists W' C, p_rayleigh_ritz syev Ns K X AX W = Ok (W', C) /\ forall r, r < PP -> length (nth r W' []) = length (nth r (if r =? 0 then [Ws] else W) []) /\ K <= length (nth r W' []).
  Proof.
    intros KP HX HAX LX LAX HI LW HW H. pose proof (cols_of K X HX LX) as KX. pose proof (cols_of K AX HAX LAX) as KAX. unfold p_rayleigh_ritz.
    destruct (ranks_ex Ns (fun r n_ => do V <- on_rank r X; do AV <- on_rank r AX; gemm_tn n_ K V AV)) as [C1 E1].
    { intros r Hr. destruct (on_rank_ex r X HX Hr) as (Vr & EV & FV). rewrite EV. cbn [bind]. destruct (on_rank_ex r AX HAX Hr) as (AVr & EAV & FAV). rewrite EAV. cbn [bind].
      apply gemm_tn_ok; [apply HNs; exact Hr|intros c Hc; apply FV; lia|intros c Hc; apply FAV; lia]. }
    rewrite (bind_go _ _ _ E1). cbv beta. destruct (allreduce_ex (K * K) C1 HI) as [C2 E2].
    { intros r Hr. destruct (ranks_inv _ _ _ [] E1) as [L F]. rewrite L in Hr. specialize (F r Hr). apply bind_inv in F. destruct F as (V & _ & F).
      apply bind_inv in F. destruct F as (AV & _ & F). apply gemm_tn_inv in F. tauto. }
    rewrite (bind_go _ _ _ E2). cbv beta. destruct (gram_sim Ns HNs HP K X AX C1 KX KAX E1 C2 E2) as (LO & LK & EM).
    rewrite (at_ok _ _ []) by lia. cbn [bind]. unfold rayleigh_ritz in H. rewrite EM in H. cbn [bind] in H. rewrite (bind_go _ _ _ H). cbv beta. cbn [fst snd].
    destruct (HS _ _ _ _ H) as [LWs LCs].
    rewrite put_ok by lia. cbn [bind]. rewrite put_ok by lia. cbn [bind].
    set (W1 := upd W 0 Ws). set (C3 := upd C2 0 Cs).
    assert (N1 : length W1 = PP /\ forall j, nth j W1 [] = if j =? 0 then Ws else nth j W []).
    { assert (E : put W 0 Ws = Ok W1) by (apply put_ok; lia). apply (put_nth []) in E. destruct E as (_ & L & F). split; [lia|exact F]. }
    assert (N3 : length C3 = PP /\ forall j, nth j C3 [] = if j =? 0 then Cs else nth j C2 []).
    { assert (E : put C2 0 Cs = Ok C3) by (apply put_ok; lia). apply (put_nth []) in E. destruct E as (_ & L & F). split; [lia|exact F]. }
    destruct N1 as [LW1 FW1]. destruct N3 as [LC3 FC3].
    destruct (bcast_ex K W1) as [W2 E7]; [lia| |].
    { intros r Hr. rewrite FW1. destruct (Nat.eqb_spec r 0); [exact LWs|apply HW; lia]. }
    destruct (bcast_ex (K * K) C3) as [C4 E8]; [lia| |].
    { intros r Hr. rewrite FC3. destruct (r =? 0); [exact LCs|]. rewrite LK by lia. apply le_n. }
    rewrite (bind_go _ _ _ E7). cbv beta. rewrite (bind_go _ _ _ E8). cbv beta. exists W2, C4. split; [reflexivity|]. intros r Hr.
    unfold MPI_Bcast in E7. apply bind_inv in E7. destruct E7 as (b & Eb & E7). apply bind_inv in E7. destruct E7 as (s & Es & E7). apply bind_inv in E7. destruct E7 as (u & Eu & E7).
    injection E7 as <-. rewrite (nth_indep _ _ (set_range 0 s [])) by (rewrite map_length; lia). rewrite map_nth. cbn [set_range]. rewrite app_length, skipn_length.
    unfold slice in Es. cbn [plus] in Es. destruct (Nat.leb_spec K (length b)) as [LE|]; [|discriminate]. injection Es as <-. cbn [skipn]. rewrite firstn_length.
    assert (K <= length (nth r W1 [])) by (rewrite FW1; destruct (Nat.eqb_spec r 0); [exact LWs|apply HW; lia]).
    replace (Nat.min K (length b) + (length (nth r W1 []) - Nat.min K (length b))) with (length (nth r W1 [])) by lia.
    split; [|assumption]. rewrite FW1. destruct (Nat.eqb_spec r 0) as [->|]; reflexivity.
  Qed.

  Lemma gemm_n_ex K bet V C (x : pvec) (b : list Qc) : all_shaped Ns V -> K <= length V -> shaped Ns x -> length C = PP -> length b = PP ->
    (forall r, r < PP -> K <= length (nth r C [])) ->
    exists y, ranks Ns (fun r n_ => do Vr <- on_rank r V; do c <- at_ C r; do x <- at_ x r; gemm_n n_ K 1 Vr c bet x) = Ok y /\
    True.
  Proof.
    intros HV HK Hx LC Lb HC. destruct (ranks_ex Ns (fun r n_ => do Vr <- on_rank r V; do c <- at_ C r; do x <- at_ x r; gemm_n n_ K 1 Vr c bet x)) as [y E]; [|eauto].
    intros r Hr. destruct (on_rank_ex r V HV Hr) as (Vr & EV & FV). rewrite EV. cbn [bind]. rewrite (at_ok _ _ []) by lia. cbn [bind].
    destruct (shaped_at x r Hx Hr) as [Ex Lx]. rewrite Ex. cbn [bind]. apply gemm_n_ok; [apply HNs; exact Hr|intros c Hc; apply FV; lia|apply HC; exact Hr|lia].
  Qed.
  Lemma det_serial {A B} (m : res A) (f : A -> nd B) a r : m = Ok a -> nbind (det m) f (Ok r) -> f a (Ok r).
  Proof. intros E H. apply det_inv in H. destruct H as (a' & E' & H). congruence. Qed.

  Lemma always_step {A B} (m : res A) (f : A -> nd B) a Q : m = Ok a -> always (f a) Q -> always (nbind (det m) f) Q.
  Proof. intros E H. eapply always_bind; [apply (always_det m a (fun x => x = a)); [exact E|reflexivity]|]. intros ? ->. exact H. Qed.

  Section LOOP.
  Variables (A : nat -> nat -> Qc) (op : pvec -> pvec -> nd pvec) (D : pvec) (tol : Qc).
  Hypothesis HO : forall v av, shaped Ns v -> shaped Ns av -> always (op v av) (fun w => shaped Ns w /\ concat w = mv NN A (concat v)).
  Hypothesis HD : shaped Ns D.
  Lemma loop_fwd max_m : (max_m + 1) * (max_m + 1) < Z.to_nat INT_MAX -> forall rem i V AV LAM X it lam y,
    all_shaped Ns V -> all_shaped Ns AV -> length V = max_m + 1 -> length AV = max_m + 1 -> i + rem <= max_m ->
    length LAM = PP -> (forall r, 0 < r < PP -> max_m + 1 <= length (nth r LAM [])) -> shaped Ns X ->
    davidson_loop root syev NN (fun v _ => ret (mv NN A v)) (glue D) tol rem i (map glue V) (map glue AV) (glue X) (Ok (it, lam, y)) ->
    always (p_davidson_loop root syev Ns op D tol max_m rem i V AV LAM X)
      (fun r => fst (fst r) = it /\ snd (fst r) = repeat lam PP /\ shaped Ns (snd r) /\ concat (snd r) = y).
  Proof.
    intros HM. induction rem as [|rem IH]; intros i V AV LAM X it lam y HV HAV LV LAV HI HL HLr HX H; [discriminate H|].
    cbn [p_davidson_loop]. cbn [davidson_loop] in H.
    assert (Hv : at_ V i = Ok (nth i V [])) by (apply at_ok; lia). assert (Hav : at_ AV i = Ok (nth i AV [])) by (apply at_ok; lia).
    assert (Sv : shaped Ns (nth i V [])) by (apply HV; lia). assert (Sav : shaped Ns (nth i AV [])) by (apply HAV; lia).
    apply (det_serial _ _ _ _ (at_map glue _ _ _ Hv)) in H. apply (det_serial _ _ _ _ (at_map glue _ _ _ Hav)) in H.
    apply nd_inv in H. destruct H as (w & Hw & H). injection Hw as ->.
    refine (always_step _ _ _ _ Hv _). cbv beta.
    refine (always_step _ _ _ _ Hav _). cbv beta.
    eapply always_bind; [apply HO; assumption|]. intros av' [Sav' Eop].
    assert (HA' : put AV i av' = Ok (upd AV i av')) by (apply put_ok; lia).
    refine (always_step _ _ _ _ HA' _). cbv beta.
    rewrite <- Eop in H. apply (det_serial _ _ _ _ (put_map glue _ _ _ _ HA')) in H.
    set (AV' := upd AV i av') in *. destruct (all_put Ns HP _ _ _ _ HAV Sav' HA') as (HAV' & LAV' & _).
    apply det_inv in H. destruct H as ((Ws & Cs) & ERR & H). cbn beta iota in H.
    apply det_inv in H. destruct H as (l & El & H). apply (at_inv _ _ _ 0%Qc) in El. destruct El as [LW El].
    assert (KV : cols Ns (i + 1) V) by (apply cols_of; [exact HV|lia]).
    assert (KAV : cols Ns (i + 1) AV') by (apply cols_of; [exact HAV'|lia]).
    destruct (prr_ex (i + 1) V AV' LAM Ws Cs) as (LAM' & C & HRR & HLL); [lia|exact HV|exact HAV'|lia|lia|nia|exact HL|intros r Hr; specialize (HLr r Hr); lia|exact ERR|].
    refine (always_step _ _ _ _ HRR _). cbv beta. cbn beta iota.
    destruct (rr_sim syev Ns HNs HP (i + 1) V AV' LAM LAM' C ltac:(lia) KV KAV HL HRR) as (LL & LC & Ws' & Cs' & ERR' & LW' & LCs & FW & FC).
    rewrite ERR in ERR'. injection ERR' as <- <-.
    destruct (mapM_ex (fun W => at_ W 0) LAM') as [lams Elams].
    { intros W HW. apply (In_nth _ _ []) in HW. destruct HW as (r & Hr & <-). rewrite LL in Hr. destruct (HLL r Hr) as [_ G]. rewrite (at_ok _ _ 0%Qc) by lia. eauto. }
    refine (always_step _ _ _ _ Elams _). cbv beta.
    apply mapM_inv in Elams. destruct Elams as [Llam Flam]. rewrite LL in *.
    assert (Elam : forall r, r < PP -> nth r lams 0%Qc = l).
    { intros r Hr. specialize (Flam r [] 0%Qc Hr). apply (at_inv _ _ _ 0%Qc) in Flam. destruct Flam as [_ <-]. transitivity (nth 0 Ws 0%Qc); [apply FW; exact Hr|exact El]. }
    assert (Rlam : lams = repeat l PP).
    { apply (nth_ext' _ _ 0%Qc); [rewrite repeat_length; exact Llam|]. intros r Hr. rewrite Llam in Hr. rewrite nth_rep by exact Hr. apply Elam. exact Hr. }
    assert (HC : forall r, r < PP -> i + 1 <= length (nth r C [])) by (intros r Hr; apply FC; exact Hr).
    (* X *)
    destruct (ranks_ex Ns (fun r n_ => do Vr <- on_rank r V; do c <- at_ C r; do x <- at_ X r; gemm_n n_ (i + 1) 1 Vr c 0 x)) as [X' HX'].
    { intros r Hr. destruct (on_rank_ex r V HV Hr) as (Vr & EV & FV). rewrite EV. cbn [bind]. rewrite (at_ok _ _ []) by lia. cbn [bind].
      destruct (shaped_at X r HX Hr) as [Ex Lx]. rewrite Ex. cbn [bind]. apply gemm_n_ok; [apply HNs; exact Hr|intros c Hc; apply FV; lia|apply HC; exact Hr|lia]. }
    refine (always_step _ _ _ _ HX' _). cbv beta.
    apply (ranks_inv _ _ _ []) in HX'. destruct HX' as [LX' FX'].
    destruct (gemm_n_sim Ns HNs HP (i + 1) 1%Qc 0%Qc V C Cs (repeat 0%Qc PP) X X' KV HX LCs) as [SX' EX'].
    { intros r Hr. apply nth_rep. exact Hr. } { intros r Hr. apply FC. exact Hr. }
    { intros r Hr. specialize (FX' r Hr). apply bind_inv in FX'. destruct FX' as (Vr & HVr & F). exists Vr. split; [exact HVr|].
      apply bind_inv in F. destruct F as (c & Hc & F). apply bind_inv in F. destruct F as (x & Hx & F).
      apply (at_inv _ _ _ []) in Hc, Hx. destruct Hc as [_ <-]. destruct Hx as [_ <-]. rewrite nth_rep by exact Hr. exact F. }
    { exact LX'. }
    apply (det_serial _ _ _ _ EX') in H.
    (* R *)
    destruct (ranks_ex Ns (fun r n_ => do AVr <- on_rank r AV'; do c <- at_ C r; do x <- at_ X' r; do l <- at_ lams r; gemm_n n_ (i + 1) 1 AVr c (- l)%Qc x)) as [R HR].
    { intros r Hr. destruct (on_rank_ex r AV' HAV' Hr) as (Vr & EV & FV). rewrite EV. cbn [bind]. rewrite (at_ok _ _ []) by lia. cbn [bind].
      destruct (shaped_at X' r SX' Hr) as [Ex Lx]. rewrite Ex. cbn [bind]. rewrite (at_ok _ _ 0%Qc) by lia. cbn [bind].
      apply gemm_n_ok; [apply HNs; exact Hr|intros c Hc; apply FV; lia|apply HC; exact Hr|lia]. }
    refine (always_step _ _ _ _ HR _). cbv beta.
    apply (ranks_inv _ _ _ []) in HR. destruct HR as [LR FR].
    destruct (gemm_n_sim Ns HNs HP (i + 1) 1%Qc (- l)%Qc AV' C Cs (repeat (- l)%Qc PP) X' R KAV SX' LCs) as [SR ER].
    { intros r Hr. apply nth_rep. exact Hr. } { intros r Hr. apply FC. exact Hr. }
    { intros r Hr. specialize (FR r Hr). apply bind_inv in FR. destruct FR as (Vr & HVr & F). exists Vr. split; [exact HVr|].
      apply bind_inv in F. destruct F as (c & Hc & F). apply bind_inv in F. destruct F as (x & Hx & F). apply bind_inv in F. destruct F as (l' & Hl & F).
      apply (at_inv _ _ _ []) in Hc, Hx. destruct Hc as [_ <-]. destruct Hx as [_ <-]. apply (at_inv _ _ _ 0%Qc) in Hl. destruct Hl as [_ Hl].
      rewrite Elam in Hl by exact Hr. subst l'. rewrite nth_rep by exact Hr. exact F. }
    { exact LR. }
    apply (det_serial _ _ _ _ ER) in H. apply (det_serial _ _ _ _ (dot_serial Ns R SR)) in H. cbv beta in H.
    destruct (ranks_ex Ns (fun r n_ => do x <- at_ R r; dot_ n_ x x)) as [dots Hd].
    { intros r Hr. destruct (shaped_at R r SR Hr) as [Ex Lx]. rewrite Ex. cbn [bind]. eexists. apply dot__ok; lia. }
    refine (always_step _ _ _ _ Hd _). cbv beta.
    assert (E8 : exists a, allreduce_one MPI_SUM 0%Qc dots = Ok a) by (eexists; apply allreduce_one_ok). destruct E8 as [dots' Hd'].
    refine (always_step _ _ _ _ Hd' _). cbv beta zeta.
    pose proof (dots_sim Ns HP _ _ _ SR Hd Hd') as Edots. clear Hd'. subst dots'. rewrite map_repeat'.
    destruct (forallb_repeat Ns HP (qlt (root (dot NN (glue R) (glue R))) tol) PP HP) as [EF EE]. rewrite EF, EE.
    destruct (qlt (root (dot NN (glue R) (glue R))) tol) eqn:EQ.
    - injection H as -> -> ->. apply always_ret. cbn [fst snd]. auto.
    - apply det_inv in H. destruct H as (R1 & HR1 & H). apply det_inv in H. destruct H as (R2 & HR2 & H). apply det_inv in H. destruct H as (V' & HV' & H).
      destruct (ranks_ex Ns (fun r n_ => do x <- at_ R r; do d <- at_ D r; do l <- at_ lams r; precondition n_ d l x)) as [R1' HR1'].
      { intros r Hr. destruct (shaped_at R r SR Hr) as [Ex Lx]. rewrite Ex. cbn [bind]. destruct (shaped_at D r HD Hr) as [Ed Ld]. rewrite Ed. cbn [bind].
        rewrite (at_ok _ _ 0%Qc) by lia. cbn [bind]. rewrite Elam by exact Hr. unfold precondition. apply mapM_ex. intros j Hj. apply in_seq in Hj.
        rewrite (at_ok _ _ 0%Qc) by lia. cbn [bind]. rewrite (at_ok _ _ 0%Qc) by lia. cbn [bind].
        unfold precondition in HR1. apply (mapM_seq_inv _ _ _ 0%Qc) in HR1. destruct HR1 as [_ F].
        specialize (F _ (start_lt Ns r j Hr ltac:(lia))). apply bind_inv in F. destruct F as (x & Hx & F). apply bind_inv in F. destruct F as (d & Hd2 & F).
        apply (at_inv _ _ _ 0%Qc) in Hx, Hd2. destruct Hx as [_ <-]. destruct Hd2 as [_ <-]. rewrite !(glue_nth Ns) in F by (assumption || lia). eauto. }
      refine (always_step _ _ _ _ HR1' _). cbv beta.
      destruct (precondition_sim Ns D lams l R R1' HD SR Elam HR1') as [SR1 E1]. rewrite E1 in HR1. injection HR1 as <-.
      destruct (pgs_ex (i + 1) V R1' R2 HV ltac:(lia) SR1 ltac:(nia) HR2) as (R2' & HR2' & SR2 & E2).
      refine (always_step _ _ _ _ HR2' _). cbv beta. subst R2.
      assert (HP2 : put V (i + 1) R2' = Ok (upd V (i + 1) R2')) by (apply put_ok; lia).
      refine (always_step _ _ _ _ HP2 _). cbv beta.
      rewrite (put_map glue _ _ _ _ HP2) in HV'. injection HV' as <-.
      destruct (all_put Ns HP _ _ _ _ HV SR2 HP2) as (HV2 & LV2 & _).
      refine (IH (S i) _ AV' LAM' X' it lam y HV2 HAV' _ _ _ LL _ SX' H); [lia|lia|lia|].
      intros r Hr. destruct (HLL r ltac:(lia)) as [G _]. rewrite G. destruct (Nat.eqb_spec r 0); [lia|]. apply HLr. exact Hr.
  Qed.
  End LOOP.
End FWD.

Lemma p_davidson_fwd root syev Ns max_m A op D tol X it lam y :
  (forall k M W C, syev k M = Ok (W, C) -> k <= length W /\ k * k <= length C) ->
  0 < length Ns -> (forall r, r < length Ns -> 0 < nth r Ns 0) ->
  (forall v av, shaped Ns v -> shaped Ns av -> always (op v av) (fun w => shaped Ns w /\ concat w = mv (total Ns) A (concat v))) ->
  shaped Ns D -> shaped Ns X -> (max_m + 1) * (max_m + 1) < Z.to_nat INT_MAX ->
  davidson_run root syev (total Ns) max_m (fun v _ => ret (mv (total Ns) A v)) (concat D) tol (concat X) (Ok (it, lam, y)) ->
  always (p_davidson root syev Ns max_m op D tol X)
    (fun r => fst (fst r) = it /\ snd (fst r) = repeat lam (length Ns) /\ shaped Ns (snd r) /\ concat (snd r) = y).
Proof.
  intros HS HP HNs HO HD HX HM H. unfold davidson_run in H. unfold p_davidson.
  assert (H0 : ranks Ns (fun r n_ => do x <- at_ X r; slice_ x 0 n_) = Ok X).
  { destruct (ranks_ex Ns (fun r n_ => do x <- at_ X r; slice_ x 0 n_)) as [x0 E].
    { intros r Hr. destruct (shaped_at Ns HP X r HX Hr) as [Ex Lx]. rewrite Ex. cbn [bind]. rewrite slice_all by exact Lx. eauto. }
    rewrite E. f_equal. apply (ranks_inv _ _ _ []) in E. destruct E as [L0 F0]. pose proof HX as [LX FX]. apply (nth_ext' _ _ []); [congruence|]. intros r Hr. rewrite L0 in Hr.
    specialize (F0 r Hr). apply bind_inv in F0. destruct F0 as (x & Hx & F0). apply (at_inv _ _ _ []) in Hx. destruct Hx as [_ <-].
    rewrite slice_all in F0 by (apply FX; exact Hr). congruence. }
  refine (always_step _ _ _ _ H0 _). cbv beta.
  set (zeros := repeat (map (fun n => repeat 0%Qc n) Ns) (max_m + 1)) in *. pose proof (zero_shaped Ns) as SZ.
  assert (LZ : length zeros = max_m + 1) by apply repeat_length.
  assert (SZS : all_shaped Ns zeros).
  { intros c Hc. rewrite LZ in Hc. unfold zeros. rewrite nth_rep by exact Hc. exact SZ. }
  assert (EZ : map (@concat Qc) zeros = repeat (repeat 0%Qc (total Ns)) (max_m + 1)).
  { unfold zeros. rewrite map_repeat', zero_glue. reflexivity. }
  rewrite <- EZ in H. apply (det_serial _ _ _ _ (slice_all _ _ (glue_length _ _ HX))) in H.
  assert (HV : put zeros 0 X = Ok (upd zeros 0 X)) by (apply put_ok; lia).
  apply (det_serial _ _ _ _ (put_map (@concat Qc) _ _ _ _ HV)) in H. refine (always_step _ _ _ _ HV _). cbv beta.
  apply nd_inv in H. destruct H as (w & Hw & H). injection Hw as ->.
  eapply always_bind; [apply HO; [exact HX|exact SZ]|]. intros av [Sav Eav]. rewrite <- Eav in H.
  assert (HAV : put zeros 0 av = Ok (upd zeros 0 av)) by (apply put_ok; lia).
  apply (det_serial _ _ _ _ (put_map (@concat Qc) _ _ _ _ HAV)) in H. refine (always_step _ _ _ _ HAV _). cbv beta.
  assert (EE : existsb (fun n => n =? 0) Ns = false).
  { destruct (existsb (fun n => n =? 0) Ns) eqn:E; [|reflexivity]. apply existsb_exists in E. destruct E as (n & Hn & E). apply (In_nth _ _ 0) in Hn. destruct Hn as (r & Hr & <-).
    specialize (HNs r Hr). apply Nat.eqb_eq in E. lia. }
  rewrite EE. refine (always_step _ _ tt _ eq_refl _). cbv beta.
  apply det_inv in H. destruct H as (u & _ & H).
  apply det_inv in H. destruct H as (V1s & HV1s & H). 
  destruct (all_put Ns HP _ _ _ _ SZS HX HV) as (SV & LV & _). destruct (all_put Ns HP _ _ _ _ SZS Sav HAV) as (SAV & LAV & _).
  assert (M1 : 1 < length (upd zeros 0 X)).
  { apply (put_nth []) in HV1s. destruct HV1s as (L & _). rewrite map_length in L. exact L. }
  assert (HV1 : put (upd zeros 0 X) 1 av = Ok (upd (upd zeros 0 X) 1 av)) by (apply put_ok; exact M1).
  rewrite (put_map (@concat Qc) _ _ _ _ HV1) in HV1s. injection HV1s as <-. refine (always_step _ _ _ _ HV1 _). cbv beta.
  destruct (all_put Ns HP _ _ _ _ SV Sav HV1) as (SV1 & LV1 & _). set (V1 := upd (upd zeros 0 X) 1 av) in *.
  apply det_inv in H. destruct H as (v1s & Hv1s & H).
  destruct (pgs_ex root Ns HNs HP 1 V1 av v1s SV1 ltac:(lia) Sav ltac:(nia) Hv1s) as (v1 & Hv1 & Sv1 & <-).
  refine (always_step _ _ _ _ Hv1 _). cbv beta.
  assert (HV2 : put V1 1 v1 = Ok (upd V1 1 v1)) by (apply put_ok; lia).
  apply (det_serial _ _ _ _ (put_map (@concat Qc) _ _ _ _ HV2)) in H. refine (always_step _ _ _ _ HV2 _). cbv beta.
  destruct (all_put Ns HP _ _ _ _ SV1 Sv1 HV2) as (SV2 & LV2 & _).
  apply (loop_fwd root syev Ns HNs HP HS A op D tol HO HD max_m HM (max_m - 1) 1 _ _ _ X it lam y SV2 SAV); [lia|lia|lia|apply map_length| |exact HX|exact H].
  intros r Hr. rewrite (nth_indep _ _ ((fun _ : nat => repeat 0%Qc (max_m + 1)) 0)) by (rewrite map_length; lia). rewrite (map_nth (fun _ : nat => repeat 0%Qc (max_m + 1)) Ns 0 r). rewrite repeat_length. apply le_n.
Qed.
