(** Growth with natural orbitals. *)
From Coq Require Import QArith Qcanon Bool.
From Verif Require Import Base SD Spec Sums FockSpec SlaterCondon Ham Nondet Mem MemProofs Dense DenseSpec DenseProofs ExpandProofs DavSpec DavProofs2
  Mcscf McscfSpec CasciSpec McscfProofs McscfProofs6 Asci AsciSpec AsciIter AsciRot AsciRotSpec.
Local Open Scope nat_scope.

Lemma natural_diag n M w C g : orthogonal n (at2 C n) -> (forall p q, p < n -> q < n -> at2 M n p q = (- g p q)%Qc) ->
  (forall i j, i < n -> j < n -> (Sigma n (fun l => at2 M n i l * at2 C n l j) = nth j w 0 * at2 C n i j)%Qc) ->
  forall p q, p < n -> q < n -> congruence2 n (at2 C n) g p q = if p =? q then (- nth p w 0)%Qc else 0%Qc.
Proof.
  intros O HM E p q Hp Hq. unfold congruence2.
  transitivity (- (nth q w 0 * Sigma n (fun i => at2 C n i p * at2 C n i q)))%Qc.
  - rewrite <- Sigma_scale, <- Sigma_opp. apply Sigma_ext. intros i Hi.
    transitivity (- (at2 C n i p * Sigma n (fun l => at2 M n i l * at2 C n l q)))%Qc.
    + rewrite <- Sigma_scale, <- Sigma_opp. apply Sigma_ext. intros j Hj. rewrite HM by auto. ring.
    + rewrite E by auto. ring.
  - rewrite O by auto. destruct (Nat.eqb_spec p q) as [->|]; ring.
Qed.
Lemma nth_map_opp l i : nth i (map Qcopp l) 0%Qc = (- nth i l 0)%Qc.
Proof. rewrite <- (map_nth Qcopp). f_equal. Qed.

Lemma last_any {A} l : forall (b d d' : A), last (b :: l) d = last (b :: l) d'.
Proof. induction l as [|c l IH]; intros b d d'; [reflexivity|]. change (last (c :: l) d = last (c :: l) d'). apply IH. Qed.
Lemma last_nonempty {A} (b a d : A) l : last (a :: b :: l) d = last (b :: l) b.
Proof. change (last (b :: l) d = last (b :: l) b). apply last_any. Qed.

Section ROT.
  Variables (syev : nat -> list Qc -> res (list Qc * list Qc)) (W n na nb : nat).
  Hypothesis Hsy : all_eigenpairs syev.
  Hypothesis HW : spin_width W.
  Hypothesis H0 : 0 < n.
  Hypothesis Hn : n <= W / 2.

  Lemma natural_ok wfn X ONS C : valid_dets W n na nb wfn -> length X = length wfn ->
    natural_orbitals syev W n wfn X = Ok (ONS, C) ->
    length C = n * n /\ exists g G, densities_of W n (combine wfn X) g G /\ natural n g (fun i => nth i ONS 0%Qc) (at2 C n).
  Proof.
    intros [_ Hv] LX. unfold natural_orbitals.
    destruct (rdm_arrays_ok W n wfn X na nb (repeat 0%Qc (n * n)) (repeat 0%Qc (n * n * (n * n))) HW Hn Hv LX) as (B1 & B2 & E & L1 & L2 & D).
    { split; [rewrite repeat_length; lia|]. intros x _. apply nth_repeat. }
    { split; [rewrite repeat_length; lia|]. intros x _. apply nth_repeat. }
    rewrite E. cbn [bind fst]. clear E. rewrite repeat_length in L1.
    destruct (syev n (map Qcopp B1)) as [[w c]|e] eqn:Es; [|discriminate]. cbn [bind]. intros Q. injection Q as <- <-.
    assert (M : forall p q, at2 (map Qcopp B1) n p q = (- at2 B1 n p q)%Qc) by (intros; apply nth_map_opp).
    assert (Sg : symmetric2 n (at2 B1 n)) by apply D.
    destruct (Hsy _ _ _ _ Es) as (Lw & Lc & O & Ev & Asc).
    { rewrite map_length. exact L1. }
    { intros p q Hp Hq. rewrite !M. f_equal. apply Sg; auto. }
    split; [exact Lc|]. exists (at2 B1 n), (at4 B2 n). split; [exact D|]. split; [exact O|]. split.
    - intros p q Hp Hq. rewrite (natural_diag n (map Qcopp B1) w c (at2 B1 n)) by auto. rewrite nth_map_opp. reflexivity.
    - intros i j Hij Hj. rewrite !nth_map_opp. apply Qcopp_le_compat. apply Asc; auto.
  Qed.

  Definition roomy (TV : list Qc * list Qc) : Prop := n * n <= length (fst TV) /\ n * n * (n * n) <= length (snd TV).
  Lemma roomy_fits TV : roomy TV -> fits2 (fst TV) n n n /\ fits4 (snd TV) n n.
  Proof.
    intros [A B]. split; (split; [lia|]).
    - intros i j Hi Hj. nia.
    - intros i j k l Hi Hj Hk Hl. pose proof (pos4_bound n i j k l Hi Hj Hk Hl). lia.
  Qed.
  Lemma rotate_ok C T V : length C = n * n -> roomy (T, V) -> exists T' V', rotate_integrals n C T V = Ok (T', V') /\
    length T' = length T /\ length V' = length V /\
    same2 n (at2 T' n) (congruence2 n (at2 C n) (at2 T n)) /\ same4 n (at4 V' n) (congruence4 n (at2 C n) (at4 V n)).
  Proof.
    intros LC R. destruct (roomy_fits _ R) as [FT FV]. cbn [fst snd] in *.
    assert (FC : fits2 C n n n) by (split; [lia|]; intros; nia).
    unfold rotate_integrals.
    destruct (two_index_ok n n T n C n T n H0 H0 FT FC FT) as (T' & -> & LT & AT & _). cbn [bind].
    destruct (four_index_ok n n V n C n V n H0 H0 (le_n n)) as (V' & -> & LV & AV & _); auto.
    { intros i m Hi Hm. destruct R as [_ R]. cbn [snd] in R. nia. }
    cbn [bind]. exists T', V'. split; [reflexivity|]. split; [exact LT|]. split; [exact LV|]. split; [exact AT|].
    intros p q r s Hp Hq Hr Hs. rewrite AV by auto. apply congruence4_ext; auto. intros. apply first4_packed.
  Qed.

  Lemma span_held T V : roomy (T, V) -> span_ints n T V = Ok (held n (T, V)).
  Proof.
    intros [A B]. cbn [fst snd] in *. unfold span_ints. rewrite (proj2 (Nat.leb_le _ _) A), (proj2 (Nat.leb_le _ _) B). reflexivity.
  Qed.
  Lemma rotation_ok dg wfn X T V : valid_dets W n na nb wfn -> length X = length wfn -> roomy (T, V) ->
    if_returns (grow_rotation syev W n dg wfn X T V) (fun R => let '(T', V', X') := R in
      length T' = length T /\ length V' = length V /\
      forall E, natural_rotation W n dg (E, wfn, X) (T, V) (T', V') X').
  Proof.
    intros Hv LX R. unfold grow_rotation.
    eapply returns_bind with (P := fun NO => natural_orbitals syev W n wfn X = Ok NO); [intros a Ha; symmetry; exact Ha|].
    intros [ONS C] EN. destruct (natural_ok wfn X ONS C Hv LX EN) as (LC & g & G & D & Nat). cbn [snd].
    destruct (rotate_ok C T V LC R) as (T' & V' & E & LT & LV & AT & AV).
    eapply returns_bind with (P := fun TV => TV = (T', V')); [intros a Ha; unfold det in Ha; congruence|]. intros TV ->.
    rewrite span_held by (unfold roomy in *; cbn [fst snd] in *; rewrite LT, LV; exact R).
    eapply returns_bind with (P := fun h => h = held n (T', V')); [intros a Ha; unfold det in Ha; congruence|]. intros h ->.
    eapply returns_bind with (P := fun EX => dg (held n (T', V')) wfn (Ok EX)); [intros a Ha; exact Ha|].
    intros [E' X'] HX. intros a Ha. unfold ret in Ha. injection Ha as ->. cbn [snd]. split; [exact LT|]. split; [exact LV|].
    intros E0. exists g, G, (fun i => nth i ONS 0%Qc), (at2 C n), E'. split; [exact D|]. split; [exact Nat|]. split; [|exact HX].
    split; [apply Nat|]. split; [exact AT|exact AV].
  Qed.

  Lemma rotated_pair U T V T' V' : rotated n U T V T' V' -> pair_symmetric n V -> pair_symmetric n V'.
  Proof.
    intros (_ & _ & S) P p q r s Hp Hq Hr Hs. rewrite !S by auto. apply congruence4_pair; auto.
  Qed.

  Variables (dbg : bool) (st : settings) (rs : rot_settings) (dg : ints -> diag).
  Hypothesis Hd : dbg = true -> na < n /\ nb < n.
  Hypothesis Hone : one_each dg.
  Hypothesis Hmax : (N.of_nat (ntdets_max st) < 2 ^ 64)%N.
  Hypothesis Hg : 2 <= grow_factor st.
  Notation pass := (grow_pass W n dbg st (grow_with_rot rs) (rot_size_start rs) dg).

  Lemma grow_rot_ok fuel : forall TV s, roomy TV -> pair_symmetric n (at4 (snd TV) n) ->
    1 <= wfn_size s -> wfn_size s <= ntdets_max st -> valid_dets W n na nb (wfn_dets s) ->
    if_returns (asci_grow_rot syev fuel dbg W n st rs dg TV s) (fun r => 
      wfn_size (fst r) = ntdets_max st /\ valid_dets W n na nb (wfn_dets (fst r)) /\
      length (fst (snd r)) = length (fst TV) /\ length (snd (snd r)) = length (snd TV) /\
      exists l, last ((s, TV) :: l) (s, TV) = r /\ path pass ((s, TV) :: l)).
  Proof.
    induction fuel as [|f IH]; intros TV [[E0 wfn] X] R PS S1 S2 HV; cbn [asci_grow_rot].
    - destruct (Nat.ltb_spec (length wfn) (ntdets_max st)) as [Hl|Hl]; [apply returns_det; discriminate|].
      apply returns_ret. cbn [fst snd]. unfold wfn_size in *. cbn [fst snd] in *. split; [lia|]. split; [exact HV|]. split; [reflexivity|]. split; [reflexivity|].
      exists []. split; [reflexivity|exact I].
    - destruct (Nat.ltb_spec (length wfn) (ntdets_max st)) as [Hl|Hl].
      2:{ apply returns_ret. cbn [fst snd]. unfold wfn_size in *. cbn [fst snd] in *. split; [lia|]. split; [exact HV|]. split; [reflexivity|]. split; [reflexivity|].
          exists []. split; [reflexivity|exact I]. }
      destruct TV as [T V]. cbn [fst snd] in PS |- *.
      rewrite span_held by exact R.
      eapply returns_bind with (P := fun h => h = held n (T, V)); [intros a Ha; unfold det in Ha; congruence|]. intros h ->.
      set (s := (E0, wfn, X)) in *. change (length wfn) with (wfn_size s) in *. fold (grow_to st s).
      pose proof (grow_strict st s Hg S1 Hl) as Hs.
      assert (LL : Nat.min (ncdets_max st) (wfn_size s) <= grow_to st s) by lia.
      assert (L64 : (N.of_nat (grow_to st s) < 2 ^ 64)%N) by (unfold grow_to; lia).
      eapply returns_bind with (P := fun m => asci_iter dbg W st (held n (T, V)) (dg (held n (T, V))) (grow_to st s) s (Ok m)); [intros a Ha; exact Ha|].
      intros m Hm. destruct (iter_len dbg W st _ _ (grow_to st s) s LL L64 m Hm) as [Lm Dm].
      pose proof (iter_valid W HW (held n (T, V)) Hn PS dbg st na nb Hd (dg (held n (T, V))) (grow_to st s) s HV m Hm) as Vm. cbn [held norb] in Vm.
      destruct m as [[E wfn1] X1]. change (length wfn1) with (wfn_size (E, wfn1, X1)). set (m := (E, wfn1, X1)) in *.
      destruct (Nat.ltb_spec (wfn_size m) (grow_to st s)) as [|Hge]; [apply returns_det; discriminate|].
      assert (Sm : wfn_size m = grow_to st s) by lia. assert (Sm' : wfn_size m <= ntdets_max st) by (unfold grow_to in Sm; lia).
      rewrite Sm. destruct (grow_with_rot rs && (rot_size_start rs <=? grow_to st s)) eqn:Er.
      + eapply returns_bind; [apply (rotation_ok dg wfn1 X1 T V Vm (Hone _ _ _ _ Dm) R)|].
        intros [[T' V'] X'] (LT & LV & NR). specialize (NR E). fold m in NR.
        assert (R' : roomy (T', V')) by (unfold roomy in *; cbn [fst snd] in *; rewrite LT, LV; exact R).
        assert (PS' : pair_symmetric n (at4 (snd (T', V')) n)) by (destruct NR as (g & G & occ & U & E' & _ & _ & Ro & _); exact (rotated_pair _ _ _ _ _ Ro PS)).
        eapply returns_weaken; [|apply (IH (T', V') (E, wfn1, X') R' PS')].
        2:{ change (wfn_size (E, wfn1, X')) with (wfn_size m). lia. }
        2:{ exact Sm'. }
        2:{ exact Vm. }
        intros r (A & B & C & D & l & El & Pl). cbn [fst snd] in *. split; [exact A|]. split; [exact B|]. split; [lia|]. split; [lia|].
        exists (((E, wfn1, X'), (T', V')) :: l). split; [rewrite <- El; apply last_nonempty|]. split; [|exact Pl].
        exists m. fold (grow_to st (fst (s, (T, V)))). cbn [fst snd]. fold (grow_to st s). rewrite Er.
        split; [exact Hm|]. split; [exact Dm|]. split; [exact Hs|]. split; [exact Sm|]. split; [reflexivity|]. split; [reflexivity|exact NR].
      + eapply returns_weaken; [|apply (IH (T, V) m R PS); [lia|exact Sm'|exact Vm]].
        intros r (A & B & C & D & l & El & Pl). split; [exact A|]. split; [exact B|]. split; [exact C|]. split; [exact D|].
        exists ((m, (T, V)) :: l). split; [rewrite <- El; apply last_nonempty|]. split; [|exact Pl].
        exists m. fold (grow_to st (fst (s, (T, V)))). cbn [fst snd]. fold (grow_to st s). rewrite Er.
        split; [exact Hm|]. split; [exact Dm|]. split; [exact Hs|]. split; [exact Sm|]. split; [reflexivity|]. split; [reflexivity|]. split; reflexivity.
  Qed.

  (** along the passes the integrals are orthogonally transformed *)
  Lemma pass_rotated a b : pass a b -> exists U, rotated n U (at2 (fst (snd a)) n) (at4 (snd (snd a)) n) (at2 (fst (snd b)) n) (at4 (snd (snd b)) n).
  Proof.
    intros (m & _ & _ & _ & _ & _ & _ & H). destruct (_ && _).
    - destruct H as (g & G & occ & U & E' & _ & _ & Ro & _). eauto.
    - destruct H as [-> _]. exists identity. split; [apply identity_orthogonal|]. split.
      + intros p q Hp Hq. symmetry. apply congruence2_id; auto.
      + intros p q r s Hp Hq Hr Hs. symmetry. apply congruence4_id; auto.
  Qed.
  Lemma rotated_trans U1 U2 T V T1 V1 T2 V2 : rotated n U1 T V T1 V1 -> rotated n U2 T1 V1 T2 V2 -> rotated n (product n U1 U2) T V T2 V2.
  Proof.
    intros (O1 & A1 & B1) (O2 & A2 & B2). split; [apply orthogonal_product; assumption|]. split.
    - intros p q Hp Hq. rewrite A2 by auto. rewrite <- congruence2_compose. apply congruence2_ext; auto.
    - intros p q r s Hp Hq Hr Hs. rewrite B2 by auto. rewrite <- congruence4_compose. apply congruence4_ext; auto.
  Qed.
  Lemma rotated_refl T V : rotated n identity T V T V.
  Proof.
    split; [apply identity_orthogonal|]. split.
    - intros p q Hp Hq. symmetry. apply congruence2_id; auto.
    - intros p q r s Hp Hq Hr Hs. symmetry. apply congruence4_id; auto.
  Qed.
  Lemma path_rotated l : forall a r, path pass (a :: l) -> last (a :: l) a = r ->
    exists U, rotated n U (at2 (fst (snd a)) n) (at4 (snd (snd a)) n) (at2 (fst (snd r)) n) (at4 (snd (snd r)) n).
  Proof.
    induction l as [|b l IH]; intros a r P E.
    - cbn [last] in E. subst r. exists identity. apply rotated_refl.
    - destruct P as [P1 P2]. destruct (pass_rotated a b P1) as (U1 & R1).
      assert (E' : last (b :: l) b = r) by (rewrite <- E; symmetry; apply last_nonempty).
      destruct (IH b r P2 E') as (U2 & R2). exists (product n U1 U2). eapply rotated_trans; eassumption.
  Qed.
End ROT.
