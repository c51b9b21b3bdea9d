From Coq Require Import QArith Qcanon.
From Verif Require Import Base SD Nondet SlaterCondon Ham HamProofs Asci AsciSort Mem MemProofs Sums SparseSpec CsrView Sparse Spmv Dist Collective CollectiveProofs Diis
  DenseSpec DenseProofs DiisSpec DiisProofs DiisProofs2 RotProofs LinRespProofs ExpandProofs FockMatProofs PSpmvProofs2 Davidson DavSpec DavProofs DavProofs2 DavProofs3 DavProofs4 DavProofs6 DavProofs7.
Local Open Scope nat_scope.
Local Opaque allreduce_one allreduce INT_MAX.

(** the distributed operator multiplies the joined vector with [A] *)
Definition p_multiplies (Ns : list nat) (A : nat -> nat -> Qc) (op : pvec -> pvec -> nd pvec) : Prop :=
  forall v av, shaped Ns v -> shaped Ns av -> if_returns (op v av) (fun w => shaped Ns w /\ concat w = mv (total Ns) A (concat v)).

Lemma det_intro {A B} (m : res A) (f : A -> nd B) a r : m = Ok a -> f a r -> nbind (det m) f r.
Proof. intros E H. right. exists a. split; [symmetry; exact E|exact H]. Qed.
Lemma ret_intro {A B} (a : A) (f : A -> nd B) r : f a r -> nbind (ret a) f r.
Proof. intros H. right. exists a. split; [reflexivity|exact H]. Qed.
Lemma at_map {A B} (f : A -> B) l i x : at_ l i = Ok x -> at_ (map f l) i = Ok (f x).
Proof. revert i. induction l as [|y l IH]; intros [|i] H; cbn in *; try discriminate; [injection H as ->; reflexivity|]. apply IH. exact H. Qed.
Lemma put_map {A B} (f : A -> B) x : forall l i l', put l i x = Ok l' -> put (map f l) i (f x) = Ok (map f l').
Proof.
  induction l as [|y l IH]; intros [|i] l' H; cbn in H; try discriminate.
  - injection H as <-. reflexivity.
  - apply bind_inv in H. destruct H as (r & Hr & H). injection H as <-. cbn. rewrite (IH _ _ Hr). reflexivity.
Qed.
Lemma mapM_seq_intro {B} (f : nat -> res B) n r b : length r = n -> (forall i, i < n -> f i = Ok (nth i r b)) -> mapM f (seq 0 n) = Ok r.
Proof.
  assert (G : forall l s, (forall i, i < length l -> f (s + i) = Ok (nth i l b)) -> mapM f (seq s (length l)) = Ok l).
  { clear r. induction l as [|x l IH]; intros s H; [reflexivity|]. cbn [length seq mapM]. specialize (H 0 ltac:(cbn; lia)) as H0. rewrite Nat.add_0_r in H0. rewrite H0. cbn [bind].
    rewrite (IH (S s)); [reflexivity|]. intros i Hi. specialize (H (S i) ltac:(cbn; lia)). rewrite <- Nat.add_succ_comm in H. exact H. }
  intros <- H. apply (G r 0). exact H.
Qed.

Lemma map_repeat' {A B} (f : A -> B) x n : map f (repeat x n) = repeat (f x) n.
Proof. induction n; [reflexivity|]. cbn. rewrite IHn. reflexivity. Qed.

Section SIM.
  Variables (root : Qc -> Qc) (syev : nat -> list Qc -> res (list Qc * list Qc)) (Ns : list nat).
  Hypothesis HNs : forall r, r < length Ns -> 0 < nth r Ns 0.
  Hypothesis HP : 0 < length Ns.
  Local Notation NN := (total Ns).
  Local Notation PP := (length Ns).
  Local Notation glue := (@concat Qc).

  Lemma precondition_sim D lam l R R' : shaped Ns D -> shaped Ns R -> (forall r, r < PP -> nth r lam 0%Qc = l) ->
    ranks Ns (fun r n_ => do x <- at_ R r; do d <- at_ D r; do l <- at_ lam r; precondition n_ d l x) = Ok R' ->
    shaped Ns R' /\ precondition NN (glue D) l (glue R) = Ok (glue R').
  Proof.
    intros HD HR Hl H. apply (ranks_inv _ _ _ []) in H. destruct H as [L F].
    assert (G : forall r, r < PP -> length (nth r R' []) = nth r Ns 0 /\ forall j, j < nth r Ns 0 ->
       fdiv (- nth j (nth r R []) 0)%Qc (nth j (nth r D []) 0 - l)%Qc = Ok (nth j (nth r R' []) 0%Qc)).
    { intros r Hr. specialize (F r Hr). apply bind_inv in F. destruct F as (x & Hx & F). apply bind_inv in F. destruct F as (d & Hd & F).
      apply bind_inv in F. destruct F as (l' & Hl' & F). apply (at_inv _ _ _ []) in Hx, Hd. destruct Hx as [_ <-]. destruct Hd as [_ <-].
      apply (at_inv _ _ _ 0%Qc) in Hl'. destruct Hl' as [_ Hl']. rewrite Hl in Hl' by exact Hr. subst l'.
      unfold precondition in F. apply (mapM_seq_inv _ _ _ 0%Qc) in F. destruct F as [LL F]. split; [exact LL|]. intros j Hj. specialize (F j Hj).
      apply bind_inv in F. destruct F as (x & Hx & F). apply bind_inv in F. destruct F as (d & Hd & F).
      apply (at_inv _ _ _ 0%Qc) in Hx, Hd. destruct Hx as [_ <-]. destruct Hd as [_ <-]. exact F. }
    assert (SR : shaped Ns R') by (split; [exact L|intros r Hr; apply G; exact Hr]).
    split; [exact SR|]. unfold precondition. apply (mapM_seq_intro _ _ _ 0%Qc); [apply glue_length; exact SR|].
    intros i Hi. rewrite (at_ok _ _ 0%Qc) by (rewrite (glue_length _ _ HR); exact Hi). cbn [bind].
    rewrite (at_ok _ _ 0%Qc) by (rewrite (glue_length _ _ HD); exact Hi). cbn [bind].
    destruct (locate Ns i Hi) as (r & j & Hr & Hj & ->). rewrite !(glue_nth Ns) by assumption. apply G; assumption.
  Qed.

  Definition all_shaped (V : list pvec) : Prop := forall c, c < length V -> shaped Ns (nth c V []).
  Lemma all_put V i x V' : all_shaped V -> shaped Ns x -> put V i x = Ok V' -> all_shaped V' /\ length V' = length V /\ i < length V.
  Proof.
    intros HV Hx H. apply (put_nth []) in H. destruct H as (Hi & L & F). split; [|auto]. intros c Hc. rewrite F.
    destruct (c =? i); [exact Hx|]. apply HV. lia.
  Qed.
  Lemma forallb_repeat (b : bool) n : 0 < n -> forallb (fun b => b) (repeat b n) = b /\ existsb (fun b => b) (repeat b n) = b.
  Proof. intros H. destruct n as [|n]; [lia|]. cbn. destruct b; [|split; [reflexivity|]]. 
    - split; [|reflexivity]. cbn. induction n; [reflexivity|]. apply IHn. lia.
    - cbn. induction n; [reflexivity|]. apply IHn. lia.
  Qed.

  Section LOOP.
  Variables (A : nat -> nat -> Qc) (op : pvec -> pvec -> nd pvec) (D : pvec) (tol : Qc).
  Hypothesis HO : p_multiplies Ns A op.
  Hypothesis HD : shaped Ns D.
  Lemma loop_sim max_m : forall rem i V AV LAM X it lams Y, all_shaped V -> all_shaped AV -> length LAM = PP -> shaped Ns X ->
    p_davidson_loop root syev Ns op D tol max_m rem i V AV LAM X (Ok (it, lams, Y)) ->
    exists lam, lams = repeat lam PP /\ shaped Ns Y /\
      davidson_loop root syev NN (fun v _ => ret (mv NN A v)) (glue D) tol rem i (map glue V) (map glue AV) (glue X) (Ok (it, lam, glue Y)).
  Proof.
    induction rem as [|rem IH]; intros i V AV LAM X it lams Y HV HAV HL HX H; [discriminate H|].
    cbn [p_davidson_loop] in H.
    apply det_inv in H. destruct H as (v & Hv & H). apply det_inv in H. destruct H as (av & Hav & H).
    apply nd_inv in H. destruct H as (av' & Hop & H). apply det_inv in H. destruct H as (AV' & HA' & H).
    apply det_inv in H. destruct H as ((LAM' & C) & HRR & H). cbn beta iota in H.
    apply det_inv in H. destruct H as (lam & Hlam & H). apply det_inv in H. destruct H as (X' & HX' & H).
    apply det_inv in H. destruct H as (R & HR & H). apply det_inv in H. destruct H as (dots & Hd & H). apply det_inv in H. destruct H as (dots' & Hd' & H).
    destruct (at_inv _ _ _ [] Hv) as [Li Ev]. destruct (at_inv _ _ _ [] Hav) as [LAi Eav].
    assert (Sv : shaped Ns v) by (rewrite <- Ev; apply HV; exact Li).
    assert (Sav : shaped Ns av) by (rewrite <- Eav; apply HAV; exact LAi).
    destruct (HO v av Sv Sav av' Hop) as [Sav' Eop].
    destruct (all_put _ _ _ _ HAV Sav' HA') as (HAV' & LAV' & _).
    assert (KV : cols Ns (i + 1) V) by (intros c Hc; split; [lia|apply HV; lia]).
    assert (KAV : cols Ns (i + 1) AV') by (intros c Hc; split; [lia|apply HAV'; lia]).
    destruct (rr_sim syev Ns HNs HP (i + 1) V AV' LAM LAM' C ltac:(lia) KV KAV HL HRR) as (LL & LC & Ws & Cs & ERR & LW & LCs & FW & FC).
    apply mapM_inv in Hlam. destruct Hlam as [Llam Flam]. rewrite LL in *.
    assert (Elam : forall r, r < PP -> nth r lam 0%Qc = nth 0 Ws 0%Qc).
    { intros r Hr. specialize (Flam r [] 0%Qc Hr). apply (at_inv _ _ _ 0%Qc) in Flam. destruct Flam as [_ <-]. apply FW. exact Hr. }
    assert (Rlam : lam = repeat (nth 0 Ws 0%Qc) PP).
    { apply (nth_ext' _ _ 0%Qc); [rewrite repeat_length; exact Llam|]. intros r Hr. rewrite Llam in Hr. rewrite nth_rep by exact Hr. apply Elam. exact Hr. }
    (* X *)
    apply (ranks_inv _ _ _ []) in HX'. destruct HX' as [LX' FX'].
    destruct (gemm_n_sim Ns HNs HP (i + 1) 1%Qc 0%Qc V C Cs (repeat 0%Qc PP) X X' KV HX LCs) as [SX' EX'].
    { intros r Hr. apply nth_rep. exact Hr. } { intros r Hr. apply FC. exact Hr. }
    { intros r Hr. specialize (FX' r Hr). apply bind_inv in FX'. destruct FX' as (Vr & HVr & F). exists Vr. split; [exact HVr|].
      apply bind_inv in F. destruct F as (c & Hc & F). apply bind_inv in F. destruct F as (x & Hx & F).
      apply (at_inv _ _ _ []) in Hc, Hx. destruct Hc as [_ <-]. destruct Hx as [_ <-]. rewrite nth_rep by exact Hr. exact F. }
    { exact LX'. }
    (* R *)
    apply (ranks_inv _ _ _ []) in HR. destruct HR as [LR FR].
    destruct (gemm_n_sim Ns HNs HP (i + 1) 1%Qc (- nth 0 Ws 0)%Qc AV' C Cs (repeat (- nth 0 Ws 0)%Qc PP) X' R KAV SX' LCs) as [SR ER].
    { intros r Hr. apply nth_rep. exact Hr. } { intros r Hr. apply FC. exact Hr. }
    { intros r Hr. specialize (FR r Hr). apply bind_inv in FR. destruct FR as (Vr & HVr & F). exists Vr. split; [exact HVr|].
      apply bind_inv in F. destruct F as (c & Hc & F). apply bind_inv in F. destruct F as (x & Hx & F). apply bind_inv in F. destruct F as (l & Hl & F).
      apply (at_inv _ _ _ []) in Hc, Hx. destruct Hc as [_ <-]. destruct Hx as [_ <-]. apply (at_inv _ _ _ 0%Qc) in Hl. destruct Hl as [_ Hl].
      rewrite Elam in Hl by exact Hr. subst l. rewrite nth_rep by exact Hr. exact F. }
    { exact LR. }
    pose proof (dots_sim Ns HP _ _ _ SR Hd Hd') as Edots. subst dots'. rewrite map_repeat' in H.
    destruct (forallb_repeat (qlt (root (dot NN (glue R) (glue R))) tol) PP HP) as [EF EE]. rewrite EF, EE in H.
    cbn [davidson_loop].
    assert (PRE : forall r, (if qlt (root (dot NN (glue R) (glue R))) tol then ret (i, nth 0 Ws 0%Qc, glue X')
        else any R0 <- det (precondition NN (glue D) (nth 0 Ws 0%Qc) (glue R));
             any R0 <- det (gram_schmidt root NN (i + 1) (map glue V) R0);
             any V0 <- det (put (map glue V) (i + 1) R0);
             davidson_loop root syev NN (fun v _ => ret (mv NN A v)) (glue D) tol rem (S i) V0 (map glue AV') (glue X')) r ->
        davidson_loop root syev NN (fun v _ => ret (mv NN A v)) (glue D) tol (S rem) i (map glue V) (map glue AV) (glue X) r).
    { intros r Hr. cbn [davidson_loop]. eapply det_intro; [apply at_map; exact Hv|]. eapply det_intro; [apply at_map; exact Hav|].
      apply ret_intro. eapply det_intro; [rewrite <- Eop; apply put_map; exact HA'|].
      eapply det_intro; [exact ERR|]. cbn beta iota. eapply det_intro; [apply (at_ok _ _ 0%Qc); exact LW|].
      eapply det_intro; [exact EX'|]. eapply det_intro; [exact ER|]. eapply det_intro; [apply dot_serial; exact SR|]. exact Hr. }
    destruct (qlt (root (dot NN (glue R) (glue R))) tol) eqn:EQ.
    - injection H as -> -> ->. exists (nth 0 Ws 0%Qc). split; [exact Rlam|]. split; [exact SX'|]. apply PRE. reflexivity.
    - apply det_inv in H. destruct H as (R1 & HR1 & H). apply det_inv in H. destruct H as (R2 & HR2 & H). apply det_inv in H. destruct H as (V' & HV' & H).
      destruct (precondition_sim _ _ _ _ _ HD SR Elam HR1) as [SR1 E1].
      destruct (gs_sim root Ns HNs HP _ _ _ _ KV SR1 HR2) as [SR2 E2].
      destruct (all_put _ _ _ _ HV SR2 HV') as (HV2 & _).
      destruct (IH (S i) V' AV' LAM' X' it lams Y HV2 HAV' ltac:(congruence) SX' H) as (l & El & SY & HS).
      exists l. split; [exact El|]. split; [exact SY|]. apply PRE.
      eapply det_intro; [exact E1|]. eapply det_intro; [exact E2|]. eapply det_intro; [apply put_map; exact HV'|]. exact HS.
  Qed.
  End LOOP.
End SIM.

Lemma zero_shaped Ns : shaped Ns (map (fun n => repeat 0%Qc n) Ns).
Proof.
  split; [apply map_length|]. intros r Hr. rewrite (nth_indep _ _ (repeat 0%Qc 0)) by (rewrite map_length; exact Hr).
  rewrite (map_nth (fun n => repeat 0%Qc n)). apply repeat_length.
Qed.
Lemma zero_glue Ns : concat (map (fun n => repeat 0%Qc n) Ns) = repeat 0%Qc (total Ns).
Proof. induction Ns as [|n Ns IH]; [reflexivity|]. cbn [map concat]. rewrite IH. rewrite <- repeat_app. reflexivity. Qed.
Lemma slice_all {A} (x : list A) n : length x = n -> slice_ x 0 n = Ok x.
Proof. intros <-. unfold slice_. rewrite Nat.leb_refl. cbn. rewrite Nat.sub_0_r, firstn_all. reflexivity. Qed.

Lemma p_davidson_sim root syev Ns max_m A op D tol X it lams Y : 0 < length Ns -> p_multiplies Ns A op -> shaped Ns D -> shaped Ns X ->
  p_davidson root syev Ns max_m op D tol X (Ok (it, lams, Y)) ->
  exists lam, lams = repeat lam (length Ns) /\ shaped Ns Y /\
    davidson_run root syev (total Ns) max_m (fun v _ => ret (mv (total Ns) A v)) (concat D) tol (concat X) (Ok (it, lam, concat Y)).
Proof.
  intros HP HO HD HX H. unfold p_davidson in H.
  apply det_inv in H. destruct H as (x0 & H0 & H). apply det_inv in H. destruct H as (V & HV & H). apply nd_inv in H. destruct H as (av & Hav & H).
  apply det_inv in H. destruct H as (AV & HAV & H). apply det_inv in H. destruct H as (u & Hu & H). apply det_inv in H. destruct H as (V1 & HV1 & H).
  apply det_inv in H. destruct H as (v1 & Hv1 & H). apply det_inv in H. destruct H as (V2 & HV2 & H).
  assert (HNs : forall r, r < length Ns -> 0 < nth r Ns 0).
  { destruct (existsb (fun n => n =? 0) Ns) eqn:E; [discriminate|]. intros r Hr. destruct (nth r Ns 0) eqn:En; [|lia].
    enough (existsb (fun n => n =? 0) Ns = true) by congruence. apply existsb_exists. exists 0. split; [rewrite <- En; apply nth_In; exact Hr|reflexivity]. }
  assert (E0 : x0 = X).
  { apply (ranks_inv _ _ _ []) in H0. destruct H0 as [L0 F0]. destruct HX as [LX FX]. apply (nth_ext' _ _ []); [congruence|]. intros r Hr. rewrite L0 in Hr.
    specialize (F0 r Hr). apply bind_inv in F0. destruct F0 as (x & Hx & F0). apply (at_inv _ _ _ []) in Hx. destruct Hx as [_ <-].
    rewrite slice_all in F0 by (apply FX; exact Hr). congruence. }
  subst x0. pose proof (zero_shaped Ns) as SZ. destruct (HO X _ HX SZ av Hav) as [Sav Eav].
  set (zeros := repeat (map (fun n => repeat 0%Qc n) Ns) (max_m + 1)) in *.
  assert (SZS : all_shaped Ns zeros).
  { intros c Hc. unfold zeros in *. rewrite repeat_length in Hc. rewrite nth_rep by exact Hc. exact SZ. }
  assert (EZ : map (@concat Qc) zeros = repeat (repeat 0%Qc (total Ns)) (max_m + 1)).
  { unfold zeros. rewrite map_repeat', zero_glue. reflexivity. }
  destruct (all_put Ns HP _ _ _ _ SZS HX HV) as (SV & LV & _). destruct (all_put Ns HP _ _ _ _ SZS Sav HAV) as (SAV & LAV & _).
  destruct (all_put Ns HP _ _ _ _ SV Sav HV1) as (SV1 & LV1 & _).
  assert (KV : cols Ns 1 V1) by (intros c Hc; assert (c < length V1) by (rewrite LV1, LV; unfold zeros; rewrite repeat_length; lia); split; [assumption|apply SV1; assumption]).
  destruct (gs_sim root Ns HNs HP 1 V1 av v1 KV Sav Hv1) as [Sv1 Ev1].
  destruct (all_put Ns HP _ _ _ _ SV1 Sv1 HV2) as (SV2 & LV2 & _).
  destruct (loop_sim root syev Ns HNs HP A op D tol HO HD max_m _ _ _ _ _ _ _ _ _ SV2 SAV (map_length _ _) HX H) as (lam & El & SY & HS).
  exists lam. split; [exact El|]. split; [exact SY|]. unfold davidson_run.
  eapply det_intro; [apply slice_all; apply glue_length; exact HX|].
  rewrite <- EZ. eapply det_intro; [apply put_map; exact HV|]. apply ret_intro.
  eapply det_intro; [rewrite <- Eav; apply put_map; exact HAV|].
  assert (0 < total Ns) by (apply (N_pos Ns HNs HP)). destruct (Nat.eqb_spec (total Ns) 0) as [|_]; [lia|].
  eapply det_intro; [reflexivity|]. rewrite <- Eav. eapply det_intro; [apply put_map; exact HV1|].
  eapply det_intro; [exact Ev1|]. eapply det_intro; [apply put_map; exact HV2|]. exact HS.
Qed.
