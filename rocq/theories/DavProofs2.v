From Coq Require Import QArith Qcanon.
From Verif Require Import Base SD Nondet SlaterCondon Ham HamProofs Asci Mem MemProofs Sums Sparse Spmv Dist Collective Diis
  DenseSpec DenseProofs DiisSpec DiisProofs DiisProofs2 RotProofs LinRespProofs ExpandProofs FockMatProofs PSpmvProofs2 Davidson DavSpec DavProofs.
Local Open Scope nat_scope.

Lemma nd_inv {A B} (m : nd A) (f : A -> nd B) b : nbind m f (Ok b) -> exists a, m (Ok a) /\ f a (Ok b).
Proof. intros [(e & _ & E)|H]; [discriminate|exact H]. Qed.
Lemma det_inv {A B} (m : res A) (f : A -> nd B) b : nbind (det m) f (Ok b) -> exists a, m = Ok a /\ f a (Ok b).
Proof. intros H. apply nd_inv in H. destruct H as (a & Ha & H). exists a. split; [symmetry; exact Ha|exact H]. Qed.
Lemma put_nth {A} (d : A) x : forall l i l', put l i x = Ok l' ->
  i < length l /\ length l' = length l /\ forall j, nth j l' d = if j =? i then x else nth j l d.
Proof.
  induction l as [|y l IH]; intros [|i] l' H; cbn in H; try discriminate.
  - injection H as <-. cbn. split; [lia|]. split; [reflexivity|]. intros [|j]; reflexivity.
  - apply bind_inv in H. destruct H as (r & Hr & H). injection H as <-. destruct (IH _ _ Hr) as (Hi & L & F).
    cbn. split; [lia|]. split; [lia|]. intros [|j]; [reflexivity|]. cbn. apply F.
Qed.

Definition columns (N i : nat) (A : nat -> nat -> Qc) (V AV : list (list Qc)) : Prop :=
  (forall j, j < length V -> length (nth j V []) = N) /\
  (forall j, j < length AV -> length (nth j AV []) = N) /\
  forall j, j < i -> forall m, m < N -> nth m (nth j AV []) 0%Qc = matvec N A (nth j V []) m.

Lemma matvec_lin N A K V c X m : (forall i, i < N -> nth i X 0%Qc = Sigma K (fun l => nth i (nth l V []) 0 * c l)%Qc) ->
  matvec N A X m = Sigma K (fun l => matvec N A (nth l V []) m * c l)%Qc.
Proof.
  intros H. unfold matvec.
  rewrite (Sigma_ext N _ (fun j => Sigma K (fun l => A m j * nth j (nth l V []) 0 * c l))%Qc).
  - rewrite Sigma_swap. apply Sigma_ext. intros l Hl. apply Sigma_scale_r.
  - intros j Hj. rewrite H by exact Hj. rewrite <- Sigma_scale. apply Sigma_ext. intros. ring.
Qed.

Lemma loop_step root syev N A op D tol rem i V AV X r : multiplies N A op -> columns N i A V AV ->
  davidson_loop root syev N op D tol (S rem) i V AV X (Ok r) ->
  exists AV' M W C X', columns N (S i) A V AV' /\ syev (i + 1) M = Ok (W, C) /\ length M = (i + 1) * (i + 1) /\
    (forall a b, a <= i -> b <= i -> at2 M (i + 1) a b = dot N (nth a V []) (map (matvec N A (nth b V [])) (seq 0 N))) /\
    length X' = N /\ (forall m, m < N -> nth m X' 0%Qc = Sigma (i + 1) (fun l => nth m (nth l V []) 0 * nth l C 0)%Qc) /\
    ((qlt (root (residual2 N A (nth 0 W 0%Qc) X')) tol = true /\ r = (i, nth 0 W 0%Qc, X')) \/
     (qlt (root (residual2 N A (nth 0 W 0%Qc) X')) tol = false /\
      exists R0 R V', gram_schmidt root N (i + 1) V R0 = Ok R /\ put V (i + 1) R = Ok V' /\
        davidson_loop root syev N op D tol rem (S i) V' AV' X' (Ok r))).
Proof.
  intros HO (CV & CAV & CA) H. cbn [davidson_loop] in H.
  apply det_inv in H. destruct H as (v & Hv & H). apply det_inv in H. destruct H as (av & Hav & H).
  apply nd_inv in H. destruct H as (av' & Hop & H). apply det_inv in H. destruct H as (AV' & HAV & H).
  apply det_inv in H. destruct H as ((W & C) & HRR & H). cbn beta iota in H.
  apply det_inv in H. destruct H as (lam & Hlam & H). apply det_inv in H. destruct H as (X' & HX & H).
  apply det_inv in H. destruct H as (R & HR & H). apply det_inv in H. destruct H as (q & Hq & H).
  apply (at_inv _ _ _ []) in Hv. destruct Hv as [Li Hv]. apply (at_inv _ _ _ []) in Hav. destruct Hav as [LAi Hav].
  apply (at_inv _ _ _ 0%Qc) in Hlam. destruct Hlam as [_ Hlam].
  assert (Lv : length v = N) by (rewrite <- Hv; apply CV; lia).
  assert (Lav : length av = N) by (rewrite <- Hav; apply CAV; lia).
  destruct (HO v av Lv Lav av' Hop) as [Lav' Fav'].
  apply (put_nth []) in HAV. destruct HAV as (_ & LAV & FAV).
  unfold rayleigh_ritz in HRR. apply bind_inv in HRR. destruct HRR as (M & HM & HS).
  apply gemm_tn_inv in HM. destruct HM as [LM FM].
  apply gemm_n_inv in HX. destruct HX as (NP & LX & FX). apply gemm_n_inv in HR. destruct HR as (_ & LR & FR).
  assert (CA' : forall j, j < S i -> forall m, m < N -> nth m (nth j AV' []) 0%Qc = matvec N A (nth j V []) m).
  { intros j Hj m Hm. rewrite FAV. destruct (Nat.eqb_spec j i) as [->|E].
    - rewrite Hv. apply Fav'. exact Hm.
    - apply CA; [lia|exact Hm]. }
  exists AV', M, W, C, X'. split; [|split; [exact HS|split; [exact LM|split; [|split; [exact LX|split]]]]].
  - split; [exact CV|split; [|exact CA']].
    intros j Hj. rewrite LAV in Hj. rewrite FAV. destruct (Nat.eqb_spec j i); [exact Lav'|apply CAV; exact Hj].
  - intros a b Ha Hb. rewrite FM by lia. apply dot_ext_r. intros m Hm. rewrite CA' by lia. symmetry. apply nth_map_seq. exact Hm.
  - intros m Hm. rewrite FX by exact Hm. ring.
  - assert (ER : q = residual2 N A lam X').
    { rewrite (dot_inv _ _ _ _ Hq). unfold residual2, norm2, dot. apply Sigma_ext. intros m Hm. rewrite FR by exact Hm.
      rewrite (matvec_lin N A (i + 1) V (fun l => nth l C 0%Qc)) by (intros m' Hm'; rewrite FX by exact Hm'; ring).
      rewrite (Sigma_ext (i + 1) (fun l => nth m (nth l AV' []) 0 * nth l C 0)%Qc (fun l => matvec N A (nth l V []) m * nth l C 0)%Qc)
        by (intros l Hl; rewrite CA' by lia; reflexivity). ring. }
    subst lam. rewrite ER in H. destruct (qlt (root (residual2 N A (nth 0 W 0%Qc) X')) tol) eqn:EQ.
    + left. split; [reflexivity|]. injection H as E. exact E.
    + right. split; [reflexivity|]. apply det_inv in H. destruct H as (R0 & _ & H). apply det_inv in H. destruct H as (R' & HG & H).
      apply det_inv in H. destruct H as (V' & HV' & H). exists R0, R', V'. auto.
Qed.

Lemma gs_length root N K V x y : gram_schmidt root N K V x = Ok y -> length y = N.
Proof.
  unfold gram_schmidt. intros H.
  do 6 (apply bind_inv in H; destruct H as (? & _ & H)). apply scal_inv in H. tauto.
Qed.
Lemma columns_put root N K A V AV x y V' i : columns N i A V AV -> gram_schmidt root N K V x = Ok y -> i <= K -> put V K y = Ok V' -> columns N i A V' AV.
Proof.
  intros (CV & CAV & CA) HG Hi HP. apply (put_nth []) in HP. destruct HP as (HK & L & F). split; [|split; [exact CAV|]].
  - intros j Hj. rewrite F. destruct (Nat.eqb_spec j K); [eapply gs_length; exact HG|]. apply CV. lia.
  - intros j Hj m Hm. rewrite F. destruct (Nat.eqb_spec j K); [lia|]. apply CA; assumption.
Qed.

(** C50: a returned pair has a small residual *)
Lemma loop_converged root syev N A op D tol : multiplies N A op -> forall rem i V AV X it lam Y, columns N i A V AV ->
  davidson_loop root syev N op D tol rem i V AV X (Ok (it, lam, Y)) ->
  i <= it < i + rem /\ length Y = N /\ (root (residual2 N A lam Y) < tol)%Qc.
Proof.
  intros HO. induction rem as [|rem IH]; intros i V AV X it lam Y CO H; [discriminate H|].
  destruct (loop_step _ _ _ _ _ _ _ _ _ _ _ _ _ HO CO H) as (AV' & M & W & C & X' & CO' & _ & _ & _ & LX & _ & [(Q & E)|(Q & R0 & R & V' & HG & HP & H')]).
  - injection E as -> -> ->. split; [lia|]. split; [exact LX|]. unfold qlt in Q. destruct (Qclt_le_dec _ tol) as [LT|]; [exact LT|discriminate].
  - destruct (IH (S i) V' AV' X' it lam Y) as (B & L & S); [eapply columns_put; [exact CO'|exact HG|lia|exact HP]|exact H'|].
    split; [lia|]. auto.
Qed.
Lemma repeat_columns N n j : j < n -> length (nth j (repeat (repeat 0%Qc N) n) []) = N.
Proof. intros H. rewrite (nth_indep _ _ (repeat 0%Qc N)) by (rewrite repeat_length; exact H). rewrite nth_repeat. apply repeat_length. Qed.
Lemma slice_inv {A} (l : list A) n r : slice_ l 0 n = Ok r -> n <= length l /\ r = firstn n l /\ length r = n.
Proof.
  unfold slice_. destruct (Nat.leb_spec n (length l)); cbn; [|discriminate]. rewrite Nat.sub_0_r. intros [= <-]. repeat split; [exact H|].
  rewrite firstn_length. lia.
Qed.
Lemma run_start root syev N max_m A op D tol X r : multiplies N A op ->
  davidson_run root syev N max_m op D tol X (Ok r) ->
  exists V AV v1, N <= length X /\ 1 <= max_m /\ columns N 1 A V AV /\ nth 0 V [] = firstn N X /\ nth 1 V [] = v1 /\
    (exists V0 av, nth 0 V0 [] = firstn N X /\ length av = N /\ (forall m, m < N -> nth m av 0%Qc = matvec N A (firstn N X) m) /\ gram_schmidt root N 1 V0 av = Ok v1) /\
    davidson_loop root syev N op D tol (max_m - 1) 1 V AV X (Ok r).
Proof.
  intros HO H. unfold davidson_run in H.
  apply det_inv in H. destruct H as (x0 & H0 & H). apply det_inv in H. destruct H as (V & HV & H).
  apply nd_inv in H. destruct H as (av & Hop & H). apply det_inv in H. destruct H as (AV & HAV & H).
  apply det_inv in H. destruct H as (u & _ & H). apply det_inv in H. destruct H as (V1 & HV1 & H).
  apply det_inv in H. destruct H as (v1 & HG & H). apply det_inv in H. destruct H as (V2 & HV2 & H).
  apply slice_inv in H0. destruct H0 as (LX & E0 & L0).
  destruct (HO x0 (repeat 0%Qc N) L0 (repeat_length _ _) av Hop) as [Lav Fav].
  pose proof (gs_length _ _ _ _ _ _ HG) as Lv1.
  apply (put_nth []) in HV, HAV, HV1, HV2. destruct HV as (_ & LV & FV). destruct HAV as (_ & LAV & FAV).
  destruct HV1 as (H1 & LV1 & FV1). destruct HV2 as (_ & LV2 & FV2). rewrite LV in H1. rewrite repeat_length in *.
  exists V2, AV, v1. split; [exact LX|]. split; [lia|]. split; [|split; [|split; [|split]]].
  - split; [|split].
    + intros j Hj. rewrite FV2. destruct (Nat.eqb_spec j 1); [exact Lv1|]. rewrite FV1. destruct (Nat.eqb_spec j 1); [lia|].
      rewrite FV. destruct (Nat.eqb_spec j 0); [exact L0|]. apply repeat_columns. lia.
    + intros j Hj. rewrite FAV. destruct (Nat.eqb_spec j 0); [exact Lav|]. apply repeat_columns. lia.
    + intros j Hj m Hm. assert (j = 0) by lia. subst j. rewrite FAV, FV2, FV1, FV. cbn. apply Fav. exact Hm.
  - rewrite FV2, FV1, FV. cbn. exact E0.
  - rewrite FV2. reflexivity.
  - exists V1, av. split; [rewrite FV1, FV; cbn; exact E0|]. split; [exact Lav|]. split; [rewrite <- E0; exact Fav|exact HG].
  - exact H.
Qed.
Lemma run_converged root syev N max_m A op D tol X it lam Y : multiplies N A op ->
  davidson_run root syev N max_m op D tol X (Ok (it, lam, Y)) ->
  1 <= it < max_m /\ length Y = N /\ (root (residual2 N A lam Y) < tol)%Qc.
Proof.
  intros HO H. destruct (run_start _ _ _ _ _ _ _ _ _ _ HO H) as (V & AV & v1 & _ & Hm & CO & _ & _ & _ & HL).
  destruct (loop_converged _ _ _ _ _ _ _ HO _ _ _ _ _ _ _ _ CO HL) as (B & L). split; [lia|exact L].
Qed.
