From Coq Require Import QArith Qcanon.
From Verif Require Import Base SD Nondet SlaterCondon Ham HamProofs Asci Mem MemProofs Sums Sparse Spmv Dist Collective Diis
  DenseSpec DenseProofs DiisSpec DiisProofs DiisProofs2 RotProofs LinRespProofs ExpandProofs FockMatProofs PSpmvProofs2 Davidson DavSpec DavProofs DavProofs2 DavProofs3.
Local Open Scope nat_scope.

(** ** n orthonormal vectors of n numbers span the space *)
Section COMPLETE.
  Variables (N : nat) (V : list (list Qc)).
  Hypothesis O : orthonormal N N V.
  Let v l m := nth m (nth l V []) 0%Qc.
  Let w j m := ((if m =? j then 1 else 0) - Sigma N (fun l => v l j * v l m))%Qc.
  Lemma w_orth j l : j < N -> l < N -> ip N (w j) (v l) = 0%Qc.
  Proof.
    intros Hj Hl. unfold w. rewrite (ip_sub N (fun m => if m =? j then 1 else 0)%Qc), (ip_lin N N (fun l => v l j) v).
    unfold ip at 1. rewrite (Sigma_delta N j (fun m => v l m)) by exact Hj.
    rewrite (Sigma_ext N _ (fun a => (if a =? l then 1 else 0) * v a j)%Qc).
    - rewrite (Sigma_delta N l (fun a => v a j)) by exact Hl. ring.
    - intros a Ha. change (ip N (v a) (v l)) with (dot N (nth a V []) (nth l V [])). rewrite O by assumption. ring.
  Qed.
  Lemma w_norm j : j < N -> ip N (w j) (w j) = (1 - Sigma N (fun l => v l j * v l j))%Qc.
  Proof.
    intros Hj. unfold w at 1. rewrite (ip_sub N (fun m => if m =? j then 1 else 0)%Qc), (ip_lin N N (fun l => v l j) v).
    unfold ip at 1. rewrite (Sigma_delta N j (fun m => w j m)) by exact Hj.
    rewrite (Sigma_ext N (fun i => v i j * ip N (v i) (w j))%Qc (fun _ => 0%Qc)) by (intros a Ha; rewrite ip_comm, w_orth by assumption; ring).
    unfold Sigma at 1. rewrite sum_zero by reflexivity. unfold w. rewrite Nat.eqb_refl. ring.
  Qed.
  Lemma w_zero j m : j < N -> m < N -> w j m = 0%Qc.
  Proof.
    intros Hj Hm.
    assert (Z : ip N (w j) (w j) = 0%Qc).
    { apply (Sigma_zero N (fun j => ip N (w j) (w j))); [|  |exact Hj].
      - intros a Ha. apply Sigma_nonneg. intros. apply square_nonneg.
      - rewrite (Sigma_ext N _ (fun j => 1 - Sigma N (fun l => v l j * v l j))%Qc) by (intros; apply w_norm; assumption).
        rewrite (Sigma_minus N (fun _ => 1%Qc)), Sigma_swap.
        rewrite (Sigma_ext N (fun l => Sigma N (fun j => v l j * v l j))%Qc (fun _ => 1%Qc)); [ring|].
        intros l Hl. change (dot N (nth l V []) (nth l V []) = 1%Qc). rewrite O by assumption. rewrite Nat.eqb_refl. reflexivity. }
    apply square_zero. apply (Sigma_zero N (fun m => w j m * w j m)%Qc); [|exact Z|exact Hm]. intros. apply square_nonneg.
  Qed.
  Lemma complete (R : nat -> Qc) : (forall l, l < N -> ip N R (v l) = 0%Qc) -> forall j, j < N -> R j = 0%Qc.
  Proof.
    intros H j Hj. rewrite <- (Sigma_delta N j R Hj). 
    rewrite (Sigma_ext N _ (fun m => Sigma N (fun l => v l j * v l m) * R m)%Qc).
    - change (ip N (fun m => Sigma N (fun l => v l j * v l m)%Qc) R = 0%Qc). rewrite (ip_lin N N (fun l => v l j) v).
      unfold Sigma. apply sum_zero. intros l Hl. apply in_seq in Hl. rewrite ip_comm, H by lia. ring.
    - intros m Hm. pose proof (w_zero j m Hj Hm) as Z. unfold w in Z. f_equal.
      replace (if m =? j then 1%Qc else 0%Qc) with ((if m =? j then 1 else 0) - Sigma N (fun l => v l j * v l m) + Sigma N (fun l => v l j * v l m))%Qc by ring.
      rewrite Z. ring.
  Qed.
End COMPLETE.

(** ** every step succeeds on arrays of the right sizes *)
Lemma gemm_t_ok N K V x : 0 < N -> (forall c, c < K -> c < length V /\ N <= length (nth c V [])) -> N <= length x -> exists r, gemm_t N K V x = Ok r.
Proof.
  intros NP HV Hx. unfold gemm_t. destruct (Nat.eqb_spec N 0); [lia|]. eexists. apply mapM_seq. intros c Hc. destruct (HV c Hc) as [H1 H2].
  rewrite (at_ok _ _ []) by exact H1. cbn. apply dot__ok; assumption.
Qed.
Lemma gemm_n_ok N K a V c b y : 0 < N -> (forall l, l < K -> l < length V /\ N <= length (nth l V [])) -> K <= length c -> N <= length y -> exists r, gemm_n N K a V c b y = Ok r.
Proof.
  intros NP HV Hc Hy. unfold gemm_n. destruct (Nat.eqb_spec N 0); [lia|].
  exists (map (fun i => a * Sigma K (fun l => nth i (nth l V []) 0 * nth l c 0) + b * nth i y 0)%Qc (seq 0 N)). apply mapM_seq. intros i Hi.
  rewrite (sumM_Sigma0 K _ (fun l => nth i (nth l V []) 0 * nth l c 0)%Qc).
  - cbn. rewrite (at_ok _ _ 0%Qc) by lia. reflexivity.
  - intros l Hl. destruct (HV l Hl) as [H1 H2]. rewrite (at_ok _ _ []) by exact H1. cbn. rewrite (at_ok _ _ 0%Qc) by lia. cbn.
    rewrite (at_ok _ _ 0%Qc) by lia. reflexivity.
Qed.
Lemma scal_ok N a x : N <= length x -> exists r, scal N a x = Ok r.
Proof. intros H. eexists. apply mapM_seq. intros i Hi. rewrite (at_ok _ _ 0%Qc) by lia. reflexivity. Qed.
Lemma gemm_tn_ok N K V AV : 0 < N -> (forall c, c < K -> c < length V /\ N <= length (nth c V [])) -> (forall c, c < K -> c < length AV /\ N <= length (nth c AV [])) ->
  exists M, gemm_tn N K V AV = Ok M.
Proof.
  intros NP HV HAV. unfold gemm_tn.
  rewrite (mapM_seq _ (fun j => map (fun c => dot N (nth c V []) (nth j AV [])) (seq 0 K))); [cbn; eauto|].
  intros j Hj. destruct (HAV j Hj) as [H1 H2]. rewrite (at_ok _ _ []) by exact H1. cbn.
  unfold gemm_t. destruct (Nat.eqb_spec N 0); [lia|]. apply mapM_seq. intros c Hc. destruct (HV c Hc) as [H3 H4].
  rewrite (at_ok _ _ []) by exact H3. cbn. apply dot__ok; assumption.
Qed.
Lemma gs_ok root N K V x : 0 < N -> (forall c, c < K -> c < length V /\ N <= length (nth c V [])) -> N <= length x ->
  (exists y, gram_schmidt root N K V x = Ok y) \/ gram_schmidt root N K V x = Err NonFinite.
Proof.
  intros NP HV Hx. unfold gram_schmidt.
  destruct (gemm_t_ok N K V x NP HV Hx) as (i1 & E1). rewrite E1. cbn. pose proof (gemm_t_inv _ _ _ _ _ E1) as (_ & L1 & _).
  destruct (gemm_n_ok N K (- (1))%Qc V i1 1%Qc x NP HV) as (x1 & E2); [lia|exact Hx|]. rewrite E2. cbn. pose proof (gemm_n_inv _ _ _ _ _ _ _ _ E2) as (_ & L2 & _).
  destruct (gemm_t_ok N K V x1 NP HV) as (i2 & E3); [lia|]. rewrite E3. cbn. pose proof (gemm_t_inv _ _ _ _ _ E3) as (_ & L3 & _).
  destruct (gemm_n_ok N K (- (1))%Qc V i2 1%Qc x1 NP HV) as (x2 & E4); [lia|lia|]. rewrite E4. cbn. pose proof (gemm_n_inv _ _ _ _ _ _ _ _ E4) as (_ & L4 & _).
  rewrite dot__ok by lia. cbn. unfold fdiv. destruct (Qc_eq_dec _ 0); cbn; [right; reflexivity|left]. apply scal_ok. lia.
Qed.
Lemma mapM_or {A B} (f : A -> res B) e l : (forall x, In x l -> (exists y, f x = Ok y) \/ f x = Err e) -> (exists r, mapM f l = Ok r) \/ mapM f l = Err e.
Proof.
  induction l as [|x l IH]; intros H; [left; exists []; reflexivity|]. cbn.
  destruct (H x (or_introl eq_refl)) as [[y ->]| ->]; cbn; [|right; reflexivity].
  destruct IH as [[r ->]| ->]; [intros z Hz; apply H; right; exact Hz| |]; cbn; [left; eauto|right; reflexivity].
Qed.
Lemma precondition_ok N D lam R : N <= length D -> N <= length R -> (exists r, precondition N D lam R = Ok r) \/ precondition N D lam R = Err NonFinite.
Proof.
  intros H1 H2. apply mapM_or. intros j Hj. apply in_seq in Hj. rewrite (at_ok _ _ 0%Qc) by lia. cbn. rewrite (at_ok _ _ 0%Qc) by lia. cbn.
  unfold fdiv. destruct (Qc_eq_dec _ 0); eauto.
Qed.

Lemma det_ok {A B} (m : res A) a (f : A -> nd B) r : m = Ok a -> nbind (det m) f r -> f a r.
Proof. intros -> [(e & E & _)|(b & E & H)]; [discriminate E|]. injection E as ->. exact H. Qed.
Lemma det_err {A B} (m : res A) e (f : A -> nd B) r : m = Err e -> nbind (det m) f r -> r = Err e.
Proof. intros -> [(e' & E & ->)|(b & E & H)]; [injection E as ->; reflexivity|discriminate E]. Qed.
Lemma always_ok {A B} (m : nd A) P (f : A -> nd B) r : always m P -> nbind m f r -> exists a, P a /\ f a r.
Proof.
  intros [_ H] [(e & E & _)|(b & E & F)]; [destruct (H _ E) as (? & X & _); discriminate|].
  destruct (H _ E) as (a & X & Pa). injection X as ->. eauto.
Qed.
Definition solver_failed (syev : nat -> list Qc -> res (list Qc * list Qc)) {A} (r : res A) : Prop :=
  exists k M e, syev k M = Err e /\ r = Err e.

Section TOTAL.
  Variables (root : Qc -> Qc) (syev : nat -> list Qc -> res (list Qc * list Qc)) (N : nat) (A : nat -> nat -> Qc)
    (op : list Qc -> list Qc -> nd (list Qc)) (D : list Qc) (tol : Qc).
  Hypotheses (HO : always_multiplies N A op) (HR : exact_root root) (HR0 : root 0%Qc = 0%Qc) (HE : eigensolver syev) (SA : symmetric2 N A)
    (HD : N <= length D) (HT : (0 < tol)%Qc).
  Lemma loop_total : forall rem i V AV X r, columns N i A V AV -> orthonormal N (i + 1) V -> length V = N + 1 -> length AV = N + 1 -> length X >= N ->
    i + rem = N -> 0 < rem -> 0 < i ->
    davidson_loop root syev N op D tol rem i V AV X r ->
    (exists s, r = Ok s) \/ r = Err NonFinite \/ solver_failed syev r.
  Proof.
    induction rem as [|rem IH]; intros i V AV X r (CV & CAV & CA) OV LV LAV LX HN Hrem Hi H; [lia|].
    cbn [davidson_loop] in H.
    apply (det_ok _ (nth i V [])) in H; [|apply at_ok; lia]. apply (det_ok _ (nth i AV [])) in H; [|apply at_ok; lia].
    apply (always_ok _ _ _ _ (HO _ _ (CV i ltac:(lia)) (CAV i ltac:(lia)))) in H. destruct H as (w & (Lw & Fw) & H).
    destruct (put AV i w) as [AV'|] eqn:EP; [|rewrite put_ok in EP by lia; discriminate].
    apply (det_ok _ AV') in H; [|first [reflexivity|assumption]]. apply (put_nth []) in EP. destruct EP as (_ & LAV' & FAV).
    assert (CAV' : forall j, j < length AV' -> length (nth j AV' []) = N).
    { intros j Hj. rewrite FAV. destruct (Nat.eqb_spec j i); [exact Lw|]. apply CAV. lia. }
    assert (CA' : forall j, j < S i -> forall m, m < N -> nth m (nth j AV' []) 0%Qc = matvec N A (nth j V []) m).
    { intros j Hj m Hm. rewrite FAV. destruct (Nat.eqb_spec j i) as [->|NE]; [apply Fw; exact Hm|]. apply CA; [lia|exact Hm]. }
    assert (SV : forall c, c < i + 1 -> c < length V /\ N <= length (nth c V [])) by (intros c Hc; rewrite CV by lia; lia).
    assert (SAV : forall c, c < i + 1 -> c < length AV' /\ N <= length (nth c AV' [])) by (intros c Hc; rewrite CAV' by lia; lia).
    destruct (gemm_tn_ok N (i + 1) V AV' ltac:(lia) SV SAV) as (M & EM).
    destruct (gemm_tn_inv _ _ _ _ _ EM) as [LM FM].
    assert (FM' : forall a b, a < i + 1 -> b < i + 1 -> at2 M (i + 1) a b = dot N (nth a V []) (mv N A (nth b V []))).
    { intros a b Ha Hb. rewrite FM by assumption. apply dot_ext_r. intros m Hm. rewrite CA' by lia. rewrite nth_mv by exact Hm. reflexivity. }
    destruct (syev (i + 1) M) as [[W C]|e] eqn:ES.
    2: { apply (det_err _ e) in H; [|unfold rayleigh_ritz; rewrite EM; exact ES]. right. right. exists (i + 1), M, e. auto. }
    apply (det_ok _ (W, C)) in H; [|unfold rayleigh_ritz; rewrite EM; exact ES]. cbn beta iota in H.
    destruct (HE _ _ _ _ ES LM (M_sym _ _ _ _ _ SA FM')) as (LW & LC & LE).
    apply (det_ok _ (nth 0 W 0%Qc)) in H; [|apply at_ok; lia].
    assert (K2 : i + 1 <= length C) by (rewrite LC; nia).
    destruct (gemm_n_ok N (i + 1) 1%Qc V C 0%Qc X ltac:(lia) SV K2 LX) as (X' & EX).
    apply (det_ok _ X' _ _ EX) in H. destruct (gemm_n_inv _ _ _ _ _ _ _ _ EX) as (_ & LX' & FX).
    destruct (gemm_n_ok N (i + 1) 1%Qc AV' C (- nth 0 W 0%Qc)%Qc X' ltac:(lia) SAV K2 ltac:(lia)) as (R & ER).
    apply (det_ok _ R _ _ ER) in H. destruct (gemm_n_inv _ _ _ _ _ _ _ _ ER) as (_ & LR & FR).
    apply (det_ok _ (dot N R R)) in H; [|apply dot__ok; lia].
    assert (FX' : forall m, m < N -> nth m X' 0%Qc = Sigma (i + 1) (fun l => nth m (nth l V []) 0 * nth l C 0)%Qc) by (intros m Hm; rewrite FX by exact Hm; ring).
    assert (FR' : forall m, m < N -> nth m R 0%Qc = (matvec N A X' m - nth 0 W 0 * nth m X' 0)%Qc).
    { intros m Hm. rewrite FR by exact Hm. rewrite (matvec_lin N A (i + 1) V (fun l => nth l C 0%Qc) X' m FX').
      rewrite (Sigma_ext (i + 1) (fun l => nth m (nth l AV' []) 0 * nth l C 0)%Qc (fun l => matvec N A (nth l V []) m * nth l C 0)%Qc)
        by (intros l Hl; rewrite CA' by lia; reflexivity). ring. }
    destruct (qlt (root (dot N R R)) tol) eqn:EQ.
    - left. exists (i, nth 0 W 0%Qc, X'). exact H.
    - destruct (Nat.eq_dec rem 0) as [->|NZ].
      + exfalso. assert (i + 1 = N) by lia.
        assert (Z : forall m, m < N -> nth m R 0%Qc = 0%Qc).
        { apply (complete N V); [replace N with (i + 1) at 2 by lia; exact OV|]. intros l Hl.
          change (dot N R (nth l V []) = 0%Qc). rewrite dot_comm.
          rewrite (dot_ext_r N _ R (map (fun m => nth m (mv N A X') 0 - nth 0 W 0 * nth m X' 0)%Qc (seq 0 N))).
          - unfold dot. rewrite (Sigma_ext N _ (fun m => nth m (nth l V []) 0 * nth m (mv N A X') 0 - nth 0 W 0 * (nth m (nth l V []) 0 * nth m X' 0))%Qc).
            + rewrite Sigma_minus, Sigma_scale. fold (dot N (nth l V []) (mv N A X')) (dot N (nth l V []) X').
              rewrite (ritz_galerkin N (i + 1) A V M C X' (nth 0 W 0%Qc) OV FM' FX' LE l) by lia. ring.
            + intros m Hm. rewrite nth_map_seq by exact Hm. ring.
          - intros m Hm. rewrite nth_map_seq, FR', nth_mv by exact Hm. reflexivity. }
        assert (Q0 : dot N R R = 0%Qc) by (unfold dot, Sigma; apply sum_zero; intros m Hm; apply in_seq in Hm; rewrite Z by lia; ring).
        rewrite Q0, HR0 in EQ. unfold qlt in EQ. destruct (Qclt_le_dec 0 tol) as [|GE]; [discriminate|]. exact (Qclt_not_le _ _ HT GE).
      + destruct (precondition_ok N D (nth 0 W 0%Qc) R HD ltac:(lia)) as [(R0 & EP)|EP].
        2: { apply (det_err _ NonFinite) in H; [auto|exact EP]. }
        apply (det_ok _ R0 _ _ EP) in H. pose proof (precondition_inv _ _ _ _ _ EP) as LR0.
        destruct (gs_ok root N (i + 1) V R0 ltac:(lia) SV ltac:(lia)) as [(Y & EG)|EG].
        2: { apply (det_err _ NonFinite) in H; [auto|exact EG]. }
        apply (det_ok _ Y _ _ EG) in H.
        destruct (put V (i + 1) Y) as [V'|] eqn:EV; [|rewrite put_ok in EV by lia; discriminate].
        apply (det_ok _ V') in H; [|first [reflexivity|assumption]].
        apply (IH (S i) V' AV' X' r); try lia.
        * eapply columns_put; [split; [exact CV|split; [exact CAV'|exact CA']]|exact EG|lia|exact EV].
        * replace (S i + 1) with ((i + 1) + 1) by lia. eapply orthonormal_extend; eassumption.
        * apply (put_nth []) in EV. lia.
        * exact H.
  Qed.

  Lemma multiplies_of : multiplies N A op.
  Proof. intros v av Lv Lav w Hw. destruct (HO v av Lv Lav) as [_ F]. destruct (F _ Hw) as (a & E & Pa). injection E as ->. exact Pa. Qed.

  Lemma davidson_total max_m X r : N <= max_m -> 2 <= N -> N <= length X -> dot N X X = 1%Qc ->
    davidson root syev N max_m op D tol X r ->
    (exists s, r = Ok s) \/ r = Err NonFinite \/ solver_failed syev r.
  Proof.
    intros HM H2 LX HX H. unfold davidson, davidson_run in H. rewrite Nat.min_r in H by exact HM.
    set (zeros := repeat (repeat 0%Qc N) (N + 1)) in *.
    assert (LZ : length zeros = N + 1) by apply repeat_length.
    apply (det_ok _ (firstn N X)) in H.
    2: { unfold slice_. destruct (Nat.leb_spec N (length X)); [|lia]. cbn. rewrite Nat.sub_0_r. reflexivity. }
    assert (L0 : length (firstn N X) = N) by (rewrite firstn_length; lia).
    destruct (put zeros 0 (firstn N X)) as [V|] eqn:EV; [|rewrite put_ok in EV by lia; discriminate].
    apply (det_ok _ V) in H; [|first [reflexivity|assumption]].
    apply (always_ok _ _ _ _ (HO _ _ L0 (repeat_length _ _))) in H. destruct H as (w & (Lw & Fw) & H).
    destruct (put zeros 0 w) as [AV|] eqn:EAV; [|rewrite put_ok in EAV by lia; discriminate].
    apply (det_ok _ AV) in H; [|first [reflexivity|assumption]].
    apply (det_ok _ tt) in H; [|destruct (Nat.eqb_spec N 0); [lia|reflexivity]].
    apply (put_nth []) in EV, EAV. destruct EV as (_ & LV & FV). destruct EAV as (_ & LAV & FAV).
    destruct (put V 1 w) as [V1|] eqn:EV1; [|rewrite put_ok in EV1 by lia; discriminate].
    apply (det_ok _ V1) in H; [|first [reflexivity|assumption]]. apply (put_nth []) in EV1. destruct EV1 as (_ & LV1 & FV1).
    assert (CZ : forall j, j < N + 1 -> length (nth j zeros []) = N) by (intros; apply repeat_columns; assumption).
    assert (V10 : nth 0 V1 [] = firstn N X) by (rewrite FV1, FV; reflexivity).
    destruct (gs_ok root N 1 V1 w ltac:(lia)) as [(v1 & EG)|EG]; [|lia| |].
    { intros c Hc. assert (c = 0) by lia. subst c. rewrite V10. lia. }
    2: { apply (det_err _ NonFinite) in H; [auto|exact EG]. }
    apply (det_ok _ v1 _ _ EG) in H.
    destruct (put V1 1 v1) as [V2|] eqn:EV2; [|rewrite put_ok in EV2 by lia; discriminate].
    apply (det_ok _ V2) in H; [|first [reflexivity|assumption]].
    assert (O1 : orthonormal N 1 V1).
    { apply orthonormal_1. rewrite V10. rewrite <- HX. unfold dot. apply Sigma_ext. intros m Hm. rewrite nth_firstn by exact Hm. reflexivity. }
    pose proof (orthonormal_extend _ _ _ _ _ _ _ HR O1 EG EV2) as O2.
    pose proof (gs_length _ _ _ _ _ _ EG) as Lv1. apply (put_nth []) in EV2. destruct EV2 as (_ & LV2 & FV2).
    apply (loop_total (N - 1) 1 V2 AV X r); try lia; [|exact O2|exact H].
    split; [|split].
    - intros j Hj. rewrite FV2. destruct (Nat.eqb_spec j 1); [exact Lv1|]. rewrite FV1. destruct (Nat.eqb_spec j 1); [lia|].
      rewrite FV. destruct (Nat.eqb_spec j 0); [exact L0|]. apply CZ. lia.
    - intros j Hj. rewrite FAV. destruct (Nat.eqb_spec j 0); [exact Lw|]. apply CZ. lia.
    - intros j Hj m Hm. assert (j = 0) by lia. subst j. rewrite FAV, FV2, FV1, FV. cbn. apply Fw. exact Hm.
  Qed.
End TOTAL.
