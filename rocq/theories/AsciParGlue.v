(** Glue for C62: when the iteration on several ranks cannot return. *)
From Coq Require Import QArith Qcanon Lqa Sorting.Permutation.
From Verif Require Import Base Nondet SD Spec Sums FockSpec Ham MemProofs PropsHamGlue DenseSpec DiisSpec Davidson DavSpec DavProofs2 DavEx
  Asci AsciSpec AsciSort AsciMpi AsciPar AsciParSpec AsciParProofs4.
Local Open Scope nat_scope.

Lemma opp_lt (x y : Qc) : (x < - y)%Qc -> (y < - x)%Qc.
Proof. unfold Qclt, Qcopp. cbn [this Q2Qc]. rewrite !Qred_correct. intros H. lra. Qed.
Section NEVER.
  Variables (root : Qc -> Qc) (syev : nat -> list Qc -> res (list Qc * list Qc)).
  Variables (W : nat) (HW : spin_width W) (h : ints).
  Notation n := (norb h).
  Hypothesis Hn : n <= W / 2.
  Hypothesis Vs : forall p q r s, p < n -> q < n -> r < n -> s < n -> V_pqrs h p q r s = V_pqrs h r s p q.
  Variables (p : par) (dbg : bool) (st : settings) (na nb : nat).
  Hypothesis Hd : dbg = true -> na < n /\ nb < n.
  Hypothesis HP : 0 < p_ranks p.
  Hypothesis Ht : (0 <= p_thr p)%Qc.
  Notation P := (p_ranks p).
  Notation tgt a := (Nat.min (Nat.max (ntdets_min st) (wfn_size a * grow_factor st)) (ntdets_max st)).

  Lemma iter_few g m s : valid_dets W n na nb (wfn_dets s) -> length (snd s) = wfn_size s ->
    Nat.min (ncdets_max st) (wfn_size s) <= m -> (Z.of_nat (m * P) < 2 ^ 31)%Z -> m < P ->
    if_returns (asci_iter_mpi root syev p g dbg W st h m s) (fun _ => False).
  Proof.
    intros Vw LX Lm HZ HF. eapply returns_weaken; [|exact (iter_parts root syev W HW h Hn Vs p dbg st na nb Hd HP Ht g m s Vw LX Lm HZ)]. cbn beta.
    intros ss (E & new & Ys & core & -> & LD & Vn & Xn & Ln & HD).
    exact (p_ci_few root syev dbg W h (p_thr p) new na nb P (p_sub p) (p_tol p) (repeat [] P) _ HW Hn Vs (proj2 Vn) Ht ltac:(lia) ltac:(nia) (repeat_length _ _) HD).
  Qed.
  Lemma grow_few fuel g s : valid_dets W n na nb (wfn_dets s) -> length (snd s) = wfn_size s -> (Z.of_nat (ntdets_max st * P) < 2 ^ 31)%Z ->
    1 <= grow_factor st -> wfn_size s < ntdets_max st -> tgt s < P ->
    if_returns (asci_grow_mpi root syev fuel p g dbg W st h s) (fun _ => False).
  Proof.
    intros Vw LX HM Hg Hs HF. destruct s as [[E0 wfn] X]. unfold wfn_size, wfn_dets in *. cbn [fst snd] in *. destruct fuel as [|f]; cbn [asci_grow_mpi].
    - destruct (Nat.ltb_spec (length wfn) (ntdets_max st)); [apply returns_det; discriminate|lia].
    - destruct (Nat.ltb_spec (length wfn) (ntdets_max st)); [|lia].
      eapply returns_bind; [apply (iter_few (g f) _ (E0, wfn, X) Vw LX)|intros x []].
      + unfold wfn_size, wfn_dets. cbn [fst snd]. assert (length wfn <= length wfn * grow_factor st) by nia. lia.
      + nia.
      + exact HF.
  Qed.

  (* the reference determinant goes to the end *)
  Variable D : N.
  Hypothesis HR : root 0%Qc = 0%Qc.
  Notation hm := (ham W n (T_pq h) (V_pqrs h)).
  Hypothesis HD1 : (hm D D < - p_thr p)%Qc.
  Hypothesis HD2 : forall t, in_space W n t -> size_is (alpha W t) na -> size_is (beta W t) nb -> t <> D -> (hm D D < hm t t)%Qc.

  Lemma diag_low sel : (forall t, In t (sel ++ [D]) -> in_space W n t /\ size_is (alpha W t) na /\ size_is (beta W t) nb) -> NoDup (sel ++ [D]) ->
    forall i, smallest_at (diag_of_matrix (length (sel ++ [D])) (ci_matrix W h (p_thr p) (sel ++ [D]))) i -> i = length sel.
  Proof.
    intros V Nd i [Hi SM]. unfold diag_of_matrix in *. rewrite map_length, seq_length in *. rewrite app_length in Hi. cbn [length] in Hi.
    destruct (Nat.eq_dec i (length sel)) as [|Ne]; [assumption|exfalso].
    specialize (SM (length sel)). rewrite app_length in SM. cbn [length] in SM. specialize (SM ltac:(lia)).
    rewrite !MemProofs.nth_map_seq in SM by lia.
    revert SM. apply Qclt_not_le. unfold ci_matrix. rewrite (app_nth2 sel [D]) by lia. rewrite Nat.sub_diag. cbn [nth].
    rewrite (app_nth1 sel [D]) by lia. set (t := nth i sel 0%N).
    assert (It : In t sel) by (apply nth_In; lia).
    assert (TD : t <> D).
    { intros E. rewrite E in It. apply NoDup_remove_2 with (l' := []) in Nd. rewrite app_nil_r in Nd. exact (Nd It). }
    assert (LT : (hm D D < 0)%Qc).
    { apply Qclt_le_trans with (- p_thr p)%Qc; [exact HD1|]. replace 0%Qc with (- 0)%Qc by reflexivity. apply Qcopp_le_compat, Ht. }
    assert (AB : qlt (p_thr p) (Qcabs (hm D D)) = true).
    { apply qlt_true. unfold Qcabs. rewrite (proj2 (qlt_true _ _) LT). exact (opp_lt _ _ HD1). }
    rewrite AB. destruct (V t (in_or_app _ _ _ (or_introl It))) as (A1 & A2 & A3). clear AB.
    match goal with |- Qclt _ (if ?b then _ else _) => destruct b end; [apply HD2; assumption|exact LT].
  Qed.
  Lemma iter_first g m s : wfn_dets s = [D] -> in_space W n D -> size_is (alpha W D) na -> size_is (beta W D) nb -> length (snd s) = 1 ->
    1 <= ncdets_max st -> 1 <= m -> (Z.of_nat (m * P) < 2 ^ 31)%Z ->
    if_returns (asci_iter_mpi root syev p g dbg W st h m s) (fun ss => forall s', In s' ss -> wfn_size s' mod P = 0).
  Proof.
    intros Es G A B LX Hc Hm HZ.
    assert (Vw : valid_dets W n na nb (wfn_dets s)).
    { rewrite Es. split; [constructor; [intros []|constructor]|]. intros x [<-|[]]. auto. }
    assert (Sz : wfn_size s = 1) by (change (length (wfn_dets s) = 1); rewrite Es; reflexivity).
    eapply returns_weaken; [|apply (iter_parts root syev W HW h Hn Vs p dbg st na nb Hd HP Ht g m s Vw); [lia|lia|exact HZ]]. cbn beta.
    intros ss (E & new & Ys & core & -> & LD & Vn & Xn & Ln & HDg) s' I. apply repeat_spec in I. subst s'. unfold wfn_size, wfn_dets. cbn [fst snd].
    destruct LD as (Lc & _ & Ic & _). rewrite Sz in Lc. rewrite Es in Ic. destruct core as [|c [|c2 core]]; cbn [length] in Lc; [lia| |lia].
    destruct (Ic c (or_introl eq_refl)) as [<-|[]]. destruct Xn as (sel & -> & _).
    destruct (Nat.eq_dec (length (sel ++ [D]) mod P) 0) as [|Ne]; [assumption|exfalso].
    refine (p_ci_remainder root syev dbg W h (p_thr p) (sel ++ [D]) na nb P (p_sub p) (p_tol p) (repeat [] P) _ HW Hn Vs (proj2 Vn) Ht HP _ (repeat_length _ _) (fun r j => nth_nils P r j) HR _ HDg).
    - nia.
    - intros i SM. apply (diag_low sel (proj2 Vn) (proj1 Vn)) in SM. subst i. rewrite app_length in *. cbn [length] in *.
      pose proof (Nat.div_mod (length sel + 1) P ltac:(lia)). lia.
  Qed.
  Lemma grow_first fuel g s : wfn_dets s = [D] -> in_space W n D -> size_is (alpha W D) na -> size_is (beta W D) nb -> length (snd s) = 1 ->
    1 <= ncdets_max st -> 1 < ntdets_max st -> 1 <= grow_factor st -> (Z.of_nat (ntdets_max st * P) < 2 ^ 31)%Z -> tgt s mod P <> 0 ->
    if_returns (asci_grow_mpi root syev fuel p g dbg W st h s) (fun _ => False).
  Proof.
    intros Es G A B LX Hc Hm Hg HM Ne.
    assert (Vw : valid_dets W n na nb (wfn_dets s)).
    { rewrite Es. split; [constructor; [intros []|constructor]|]. intros x [<-|[]]. auto. }
    assert (Sz : wfn_size s = 1) by (change (length (wfn_dets s) = 1); rewrite Es; reflexivity).
    destruct s as [[E0 wfn] X]. set (s := (E0, wfn, X)) in *. assert (Lw : length wfn = 1) by exact Sz.
    destruct fuel as [|f]; cbn [asci_grow_mpi].
    - fold s. unfold s. cbv beta iota. rewrite Lw. destruct (Nat.ltb_spec 1 (ntdets_max st)); [apply returns_det; discriminate|lia].
    - unfold s. cbv beta iota. fold s. change (length wfn) with (wfn_size s). destruct (Nat.ltb_spec (wfn_size s) (ntdets_max st)); [|lia].
      intros s2 H2. apply nd_inv in H2. destruct H2 as (ss & H1 & H2). apply nd_inv in H2. destruct H2 as (s1 & E1 & H2).
      assert (LL : 1 <= tgt s) by lia. assert (HZ : (Z.of_nat (tgt s * P) < 2 ^ 31)%Z) by nia.
      destruct (iter_parts root syev W HW h Hn Vs p dbg st na nb Hd HP Ht (g f) (tgt s) s Vw (eq_trans LX (eq_sym Sz)) ltac:(lia) HZ ss H1) as (E & new & Ys & core & -> & _ & _ & _ & Ln & _).
      pose proof (iter_first (g f) (tgt s) s Es G A B LX Hc LL HZ _ H1) as K. red in E1. rewrite common_repeat in E1 by exact HP. injection E1 as ->. cbn [fst snd] in H2.
      destruct (Nat.ltb_spec (length new) (tgt s)) as [|Hge]; [discriminate H2|].
      specialize (K (E, new, concat Ys)). unfold wfn_size at 1, wfn_dets in K. cbn [fst snd] in K. apply Ne. replace (tgt s) with (length new) by lia. apply K.
      destruct P as [|k]; [lia|]. left. reflexivity.
  Qed.
End NEVER.
