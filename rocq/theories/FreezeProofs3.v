(** The Hamiltonian between frozen determinants. *)
From Coq Require Import QArith Qcanon.
From Verif Require Import Base Bits BitsProofs SD Spec SDProofs SDProofs2 SDProofs4 SDProofs5 Sums
  FockSpec FockProofs SlaterCondon Ham HamProofs HamProofs2 HamProofs3 DenseSpec McscfSpec FreezeSpec FreezeProofs FreezeProofs2.
Local Open Scope nat_scope.

Definition labels (n : nat) : list (bool * nat) := list_prod spins (seq 0 n).
Lemma labels_In n x : In x (labels n) <-> snd x < n.
Proof.
  unfold labels. destruct x as [s p]. rewrite in_prod_iff, in_seq. cbn [snd]. split; [lia|]. intros H. split; [destruct s; cbn; auto|lia].
Qed.
Lemma labels_NoDup n : NoDup (labels n).
Proof.
  unfold labels. apply NoDup_list_prod; [|apply seq_NoDup]. repeat (apply NoDup_cons; [cbn; intuition discriminate|]). constructor.
Qed.
Lemma SO_labels W n : SO W n = map (plain W) (labels n).
Proof. unfold SO, labels, spins, plain. cbn [flat_map list_prod]. rewrite !app_nil_r, map_app, !map_map. reflexivity. Qed.
Lemma sum_labels n f : sum (labels n) f = sum spins (fun s => sum (seq 0 n) (fun p => f (s, p))).
Proof. apply sum_prod. Qed.

Section HAM.
  Variables (W W2 no ni na : nat) (T : nat -> nat -> Qc) (V : nat -> nat -> nat -> nat -> Qc).
  Hypothesis (Hno : no <= W2 / 2) (Hna : na <= W / 2) (Hi : ni + na <= no).
  Hypothesis Vsym : forall p q r s, p < no -> q < no -> r < no -> s < no -> V p q r s = V r s p q.
  Notation h := (lift1 W2 T).
  Notation v := (lift2 W2 V).
  Notation shf := (shifted W2 ni).
  Notation core := (SO W2 ni).
  Notation actv := (map shf (labels na)).

  Lemma SO_so s p n : n <= W2 / 2 -> p < n -> In (so W2 s p) (SO W2 n).
  Proof. intros A B. apply SO_In; auto. eauto. Qed.
  Lemma shifted_inj x y : In x (labels na) -> In y (labels na) -> shf x = shf y -> x = y.
  Proof.
    rewrite !labels_In. intros A B E. destruct x as [s p], y as [t q]. unfold shifted in E. cbn [fst snd] in *.
    apply Nat.eqb_eq in E. rewrite so_eqb in E by (auto; lia || right; lia). apply andb_prop in E. destruct E as [E1 E2].
    apply eqb_prop in E1. apply Nat.eqb_eq in E2. f_equal; auto; lia.
  Qed.
  Lemma parts_NoDup : NoDup (core ++ actv).
  Proof.
    apply NoDup_app.
    - apply SO_NoDup. lia.
    - apply NoDup_map_inj; [|apply labels_NoDup]. intros x y A B E. apply shifted_inj; auto.
    - intros x A B. apply SO_In in A; [|lia]. destruct A as (s & p & Hp & ->). apply in_map_iff in B. destruct B as ([t q] & E & B).
      apply labels_In in B. unfold shifted in E. cbn [fst snd] in *. apply Nat.eqb_eq in E. rewrite so_eqb in E by (try (right; lia); lia).
      apply andb_prop in E. destruct E as [_ E]. apply Nat.eqb_eq in E. lia.
  Qed.
  Lemma parts_In x : In x (core ++ actv) -> In x (SO W2 no).
  Proof.
    rewrite in_app_iff. intros [A|B].
    - apply SO_In in A; [|lia]. destruct A as (s & p & Hp & ->). apply SO_so; lia.
    - apply in_map_iff in B. destruct B as ([t q] & <- & B). apply labels_In in B. unfold shifted. cbn [fst snd] in *. apply SO_so; lia.
  Qed.
  Lemma bits_In b i : in_space W na b -> tb (freeze W W2 ni b) i = true -> In i (core ++ actv).
  Proof.
    intros Sb H. destruct (so_cover W2 i) as (s & p & -> & C). apply in_app_iff. destruct (Nat.ltb_spec p ni) as [L|L].
    - left. apply SO_so; lia.
    - right. apply in_map_iff. exists (s, p - ni). unfold shifted. cbn [fst snd].
      split; [f_equal; lia|]. apply labels_In. cbn [snd]. destruct (Nat.ltb_spec (p - ni) na); auto.
      rewrite (tb_empty W W2 ni na) in H by (auto; lia). discriminate.
  Qed.
  Lemma lift2_symm : symm (core ++ actv) v.
  Proof.
    intros x y z w Hx Hy Hz Hw. apply parts_In in Hx, Hy, Hz, Hw. apply SO_In in Hx, Hy, Hz, Hw; [|lia..].
    destruct Hx as (s1 & p1 & P1 & ->), Hy as (s2 & p2 & P2 & ->), Hz as (s3 & p3 & P3 & ->), Hw as (s4 & p4 & P4 & ->).
    rewrite !(lift2_so W2 no) by auto. rewrite andb_comm. destruct (eqb s3 s4 && eqb s1 s2); auto.
  Qed.
  (** the frozen field and energy, summed over spins *)
  Lemma sum_core f : sum core f = sum spins (fun s => sum (seq 0 ni) (fun p => f (so W2 s p))).
  Proof. apply sum_SO. Qed.
  Lemma field_active x y : snd x < na -> snd y < na ->
    frozen_field core h v (shf x) (shf y) = if eqb (fst x) (fst y) then active_T ni T V (snd x) (snd y) else 0%Qc.
  Proof.
    intros Hx Hy. destruct x as [s p], y as [t q]. unfold shifted. cbn [fst snd] in *. unfold frozen_field.
    rewrite (lift1_so W2 no) by lia. rewrite sum_core. unfold spins. cbn [sum]. rewrite Qcplus_0_r.
    assert (X : forall u, sum (seq 0 ni) (fun i => v (so W2 u i) (so W2 u i) (so W2 s (p + ni)) (so W2 t (q + ni)) - v (so W2 u i) (so W2 t (q + ni)) (so W2 s (p + ni)) (so W2 u i))%Qc =
      if eqb s t then sum (seq 0 ni) (fun i => V (p + ni)%nat (q + ni)%nat i i - (if eqb u s then V (p + ni)%nat i i (q + ni)%nat else 0))%Qc else 0%Qc).
    { intros u. destruct (eqb s t) eqn:E.
      - apply eqb_prop in E. subst t. apply sum_ext. intros i Hh. apply in_seq in Hh. rewrite !(lift2_so W2 no) by lia. rewrite !eqb_reflx. cbn [andb].
        rewrite (Vsym i i) by lia. destruct u, s; cbn [eqb andb]; try reflexivity; rewrite (Vsym i (q + ni)) by lia; reflexivity.
      - apply sum_zero. intros i Hh. apply in_seq in Hh. rewrite !(lift2_so W2 no) by lia. rewrite E, andb_false_r.
        destruct u, s, t; cbn [eqb andb] in *; try discriminate; ring. }
    rewrite !X. destruct (eqb s t) eqn:E; [|ring]. apply eqb_prop in E. subst t.
    unfold active_T, shift2, inactive_fock, Sigma. f_equal. rewrite <- sum_plus. apply sum_ext. intros i _. unfold two. destruct s; cbn [eqb]; ring.
  Qed.
  Lemma energy_core : frozen_energy core h v = core_energy ni T V.
  Proof.
    unfold frozen_energy, core_energy, Sigma. f_equal.
    - rewrite sum_core. unfold spins. cbn [sum].
      assert (X : forall s, sum (seq 0 ni) (fun p => h (so W2 s p) (so W2 s p)) = sum (seq 0 ni) (fun i => T i i)).
      { intros s. apply sum_ext. intros i Hh. apply in_seq in Hh. rewrite (lift1_so W2 no) by lia. rewrite eqb_reflx. reflexivity. }
      rewrite !X, sum_scale. unfold two. ring.
    - rewrite sum_core. unfold spins at 1. cbn [sum].
      assert (X : forall s, sum (seq 0 ni) (fun p => sum core (fun d => v (so W2 s p) (so W2 s p) d d - v (so W2 s p) d d (so W2 s p)))%Qc =
        sum (seq 0 ni) (fun i => sum (seq 0 ni) (fun j => two * V i i j j - V i j j i))%Qc).
      { intros s. apply sum_ext. intros i Hh. apply in_seq in Hh. rewrite sum_core. unfold spins. cbn [sum].
        rewrite Qcplus_0_r, <- sum_plus. apply sum_ext. intros j Hj. apply in_seq in Hj. rewrite !(lift2_so W2 no) by lia.
        unfold two. destruct s; cbn [eqb andb]; ring. }
      rewrite !X. set (Y := sum (seq 0 ni) _). rewrite Qcplus_0_r. replace (half * (Y + Y))%Qc with (half * Y + half * Y)%Qc by ring. apply half_half.
  Qed.
  Lemma ham_freeze b k : in_space W na b -> in_space W na k ->
    ham W2 no T V (freeze W W2 ni b) (freeze W W2 ni k) =
    ((if (b =? k)%N then core_energy ni T V else 0) + ham W na (active_T ni T V) (active_V ni V) b k)%Qc.
  Proof.
    intros Sb Sk. unfold ham at 1. rewrite one_body_E1, two_body_E2 by auto. fold (energy (SO W2 no) h v (freeze W W2 ni b) (freeze W W2 ni k)).
    rewrite (energy_restrict (SO W2 no) (core ++ actv)).
    2:{ apply SO_NoDup; auto. } 2:{ apply parts_NoDup. } 2:{ apply parts_In. }
    2,3:(intros i; apply bits_In; auto).
    rewrite energy_freeze.
    2:{ apply parts_NoDup. }
    2:{ intros c Hc. apply SO_In in Hc; [|lia]. destruct Hc as (s & p & Hp & ->). split; apply (tb_frozen W W2 ni na); auto; try (right; lia); lia. }
    2:{ apply lift2_symm. }
    rewrite energy_core. f_equal.
    { unfold delta. destruct (N.eqb_spec b k) as [->|N].
      - rewrite N.eqb_refl. ring.
      - destruct (N.eqb_spec (freeze W W2 ni b) (freeze W W2 ni k)) as [E|]; [|ring]. exfalso. apply N. revert E. apply (freeze_inj W W2 ni na); auto. lia. }
    unfold ham. rewrite one_body_E1, two_body_E2 by lia. unfold energy. f_equal; [|f_equal].
    - unfold E1. rewrite (SO_labels W na), !sum_map. apply sum_ext. intros x Hx. rewrite !sum_map. apply sum_ext. intros y Hy.
      apply labels_In in Hx, Hy. rewrite field_active by auto. unfold plain at 1 2. rewrite (lift1_so W na) by (auto; lia).
      destruct (eqb (fst x) (fst y)) eqn:E; [|ring]. apply eqb_prop in E. f_equal. apply (braket1_freeze W W2 ni na); auto. lia.
    - unfold E2. rewrite (SO_labels W na), !sum_map. apply sum_ext. intros x Hx. rewrite !sum_map. apply sum_ext. intros y Hy.
      rewrite !sum_map. apply sum_ext. intros z Hz. rewrite !sum_map. apply sum_ext. intros w Hw.
      apply labels_In in Hx, Hy, Hz, Hw. unfold shifted at 1 2 3 4. unfold plain at 1 2 3 4. rewrite (lift2_so W2 no), (lift2_so W na) by (auto; lia).
      destruct (eqb (fst x) (fst y)) eqn:E; cbn [andb]; [|ring]. destruct (eqb (fst z) (fst w)) eqn:F; [|ring].
      apply eqb_prop in E, F. f_equal. apply (braket2_freeze W W2 ni na); auto. lia.
  Qed.
End HAM.
