(** The first-order change of the energy is the contraction of the rotation with the
    generalised Fock matrix (C55). *)
From Coq Require Import QArith Qcanon Bool Lia.
From Verif Require Import Base Sums Dense DenseSpec DenseProofs FockMatProofs.
Local Open Scope nat_scope.

Lemma Sigma_sym n f : Sigma n (fun i => Sigma n (fun j => f i j + f j i))%Qc = (two * Sigma n (fun i => Sigma n (fun j => f i j)))%Qc.
Proof.
  rewrite (Sigma_ext n _ (fun i => Sigma n (fun j => f i j) + Sigma n (fun j => f j i)))%Qc by (intros; apply Sigma_plus).
  rewrite Sigma_plus. rewrite (Sigma_swap n n (fun i j => f j i)). unfold two. ring.
Qed.
Lemma Sigma_0 n : Sigma n (fun _ => 0%Qc) = 0%Qc.
Proof. unfold Sigma. induction (seq 0 n) as [|x l IH]; cbn [sum]; auto. rewrite IH. ring. Qed.
Lemma Sigma_ext2 n m f g : (forall i j, i < n -> j < m -> f i j = g i j) -> Sigma n (fun i => Sigma m (fun j => f i j)) = Sigma n (fun i => Sigma m (fun j => g i j)).
Proof. intros H. apply Sigma_ext. intros i Hi. apply Sigma_ext. intros j Hj. auto. Qed.
Lemma Sigma_pull n m c g : Sigma n (fun o => c o * Sigma m (fun j => g o j))%Qc = Sigma m (fun j => Sigma n (fun o => c o * g o j))%Qc.
Proof. rewrite <- Sigma_swap. apply Sigma_ext. intros o _. symmetry. apply Sigma_scale. Qed.
Lemma Sigma_swap3 n m k f : Sigma n (fun i => Sigma m (fun j => Sigma k (fun l => f i j l))) = Sigma m (fun j => Sigma k (fun l => Sigma n (fun i => f i j l))).
Proof. rewrite Sigma_swap. apply Sigma_ext. intros j _. apply Sigma_swap. Qed.

(** symmetries are inherited *)
Lemma eight_qp n V p q r s : eightfold n V -> p < n -> q < n -> r < n -> s < n -> V p q r s = V q p r s.
Proof. intros H Hp Hq Hr Hs. apply (H p q r s); auto. Qed.
Lemma eight_swap n V p q r s : eightfold n V -> p < n -> q < n -> r < n -> s < n -> V p q r s = V r s p q.
Proof. intros H Hp Hq Hr Hs. apply (H p q r s); auto. Qed.
Lemma eight_sr n V p q r s : eightfold n V -> p < n -> q < n -> r < n -> s < n -> V p q r s = V p q s r.
Proof. intros H Hp Hq Hr Hs. rewrite (eight_swap n V p q r s), (eight_swap n V p q s r) by auto. apply (eight_qp n); auto. Qed.
Lemma eight_four n D : eightfold n D -> fourfold n D.
Proof. intros H p q r s Hp Hq Hr Hs. split; [apply (eight_swap n); auto|]. rewrite (eight_qp n D p q r s), (eight_sr n D q p r s) by auto. reflexivity. Qed.
Lemma four_swap n D p q r s : fourfold n D -> p < n -> q < n -> r < n -> s < n -> D p q r s = D r s p q.
Proof. intros H Hp Hq Hr Hs. apply (H p q r s); auto. Qed.
Lemma four_flip n D p q r s : fourfold n D -> p < n -> q < n -> r < n -> s < n -> D p q r s = D q p s r.
Proof. intros H Hp Hq Hr Hs. apply (H p q r s); auto. Qed.
Lemma one_index2_sym n K T : symmetric2 n T -> symmetric2 n (one_index2 n K T).
Proof.
  intros H p q Hp Hq. unfold one_index2. apply Sigma_ext. intros o Ho. rewrite (H o q), (H p o) by auto. ring.
Qed.
Lemma one_index4_eight n K V : eightfold n V -> eightfold n (one_index4 n K V).
Proof.
  intros H p q r s Hp Hq Hr Hs. split; unfold one_index4; apply Sigma_ext; intros o Ho.
  - rewrite (eight_swap n V o q r s), (eight_swap n V p o r s), (eight_swap n V p q o s), (eight_swap n V p q r o) by auto. ring.
  - rewrite (eight_qp n V o q r s), (eight_qp n V p o r s), (eight_qp n V p q o s), (eight_qp n V p q r o) by auto. ring.
Qed.

Section Response.
  Variables (no ni na : nat) (K T : nat -> nat -> Qc) (V : nat -> nat -> nat -> nat -> Qc) (D : nat -> nat -> Qc) (D2 : nat -> nat -> nat -> nat -> Qc).
  Hypothesis Hn : ni + na <= no.
  Hypothesis HT : symmetric2 no T.
  Hypothesis HV : eightfold no V.
  Hypothesis HD : symmetric2 na D.
  Hypothesis HD2 : fourfold na D2.
  Let dT := one_index2 no K T.
  Let dV := one_index4 no K V.
  Local Open Scope Qc_scope.

  Definition ra1 := Sigma ni (fun i => Sigma no (fun o => K i o * T o i)).
  Definition ra2 := Sigma ni (fun i => Sigma ni (fun j => Sigma no (fun o => K i o * V o i j j))).
  Definition ra3 := Sigma ni (fun i => Sigma ni (fun j => Sigma no (fun o => K i o * V o j j i))).
  Definition ra4 := Sigma na (fun x => Sigma na (fun y => D x y * Sigma ni (fun i => Sigma no (fun o => K i o * V o i (x + ni)%nat (y + ni)%nat)))).
  Definition ra5 := Sigma na (fun x => Sigma na (fun y => D x y * Sigma ni (fun i => Sigma no (fun o => K i o * V o (y + ni)%nat (x + ni)%nat i)))).
  Definition rb1 := Sigma na (fun x => Sigma na (fun y => D y x * Sigma no (fun o => K (x + ni)%nat o * T o (y + ni)%nat))).
  Definition rb2 := Sigma na (fun x => Sigma na (fun y => D y x * Sigma ni (fun i => Sigma no (fun o => K (x + ni)%nat o * V o (y + ni)%nat i i)))).
  Definition rb3 := Sigma na (fun x => Sigma na (fun y => D y x * Sigma ni (fun i => Sigma no (fun o => K (x + ni)%nat o * V o i i (y + ni)%nat)))).
  Definition rb4 := Sigma na (fun v => Sigma na (fun w => Sigma na (fun x => Sigma na (fun y => D2 v w x y *
    Sigma no (fun o => K (v + ni)%nat o * V o (w + ni)%nat (x + ni)%nat (y + ni)%nat))))).

  Lemma resp1 : Sigma ni (fun i => dT i i) = two * ra1.
  Proof.
    unfold ra1. rewrite <- Sigma_scale. apply Sigma_ext. intros i Hi. unfold dT, one_index2. rewrite <- Sigma_scale. apply Sigma_ext. intros o Ho.
    rewrite (HT i o) by lia. unfold two. ring.
  Qed.
  Lemma resp2 : Sigma ni (fun i => Sigma ni (fun j => dV i i j j)) = two * (two * ra2).
  Proof.
    unfold ra2. rewrite <- Sigma_sym, <- Sigma_scale. apply Sigma_ext. intros i Hi. rewrite <- Sigma_scale. apply Sigma_ext. intros j Hj.
    unfold dV, one_index4. rewrite <- Sigma_plus, <- Sigma_scale. apply Sigma_ext. intros o Ho.
    rewrite (eight_qp no V i o j j), (eight_swap no V i i o j), (eight_swap no V i i j o), (eight_qp no V j o i i) by (auto; lia). unfold two. ring.
  Qed.
  Lemma resp3 : Sigma ni (fun i => Sigma ni (fun j => dV i j j i)) = two * (two * ra3).
  Proof.
    unfold ra3. rewrite <- Sigma_sym, <- Sigma_scale. apply Sigma_ext. intros i Hi. rewrite <- Sigma_scale. apply Sigma_ext. intros j Hj.
    unfold dV, one_index4. rewrite <- Sigma_plus, <- Sigma_scale. apply Sigma_ext. intros o Ho.
    rewrite (eight_qp no V i o j i), (eight_sr no V o i j i), (eight_swap no V i j o i), (eight_sr no V o i i j) by (auto; lia).
    rewrite (eight_sr no V o i j i) by (auto; lia).
    rewrite (eight_swap no V i j j o), (eight_qp no V j o i j), (eight_sr no V o j i j) by (auto; lia). unfold two. ring.
  Qed.
  Lemma resp4 : Sigma na (fun x => Sigma na (fun y => D x y * shift2 ni dT x y)) = two * rb1.
  Proof.
    unfold rb1. rewrite <- Sigma_sym. apply Sigma_ext2. intros x y Hx Hy. unfold shift2, dT, one_index2.
    rewrite (HD x y) by auto. rewrite <- Qcmult_plus_distr_r, <- Sigma_plus. f_equal. apply Sigma_ext. intros o Ho. rewrite (HT (x + ni)%nat o) by lia. ring.
  Qed.
  Lemma resp5 : Sigma na (fun x => Sigma na (fun y => D x y * Sigma ni (fun i => dV (x + ni)%nat (y + ni)%nat i i))) = two * rb2 + two * ra4.
  Proof.
    unfold rb2, ra4. rewrite <- Sigma_sym, <- Sigma_scale, <- Sigma_plus. apply Sigma_ext. intros x Hx. rewrite <- Sigma_scale, <- Sigma_plus. apply Sigma_ext. intros y Hy.
    rewrite (HD y x) by auto. transitivity (D x y * (Sigma ni (fun i => Sigma no (fun o => K (x + ni)%nat o * V o (y + ni)%nat i i)) +
      Sigma ni (fun i => Sigma no (fun o => K (y + ni)%nat o * V o (x + ni)%nat i i)) + two * Sigma ni (fun i => Sigma no (fun o => K i o * V o i (x + ni)%nat (y + ni)%nat)))); [|ring].
    f_equal. rewrite <- Sigma_scale, <- !Sigma_plus. apply Sigma_ext. intros i Hi. rewrite <- Sigma_scale, <- !Sigma_plus. unfold dV, one_index4.
    apply Sigma_ext. intros o Ho.
    rewrite (eight_qp no V (x + ni)%nat o i i), (eight_swap no V (x + ni)%nat (y + ni)%nat o i), (eight_swap no V (x + ni)%nat (y + ni)%nat i o), (eight_qp no V i o (x + ni)%nat (y + ni)%nat) by (auto; lia).
    unfold two. ring.
  Qed.
  Lemma resp6 : Sigma na (fun x => Sigma na (fun y => D x y * Sigma ni (fun i => dV (x + ni)%nat i i (y + ni)%nat))) = two * rb3 + two * ra5.
  Proof.
    unfold rb3, ra5. rewrite <- !Sigma_sym, <- Sigma_plus. apply Sigma_ext. intros x Hx. rewrite <- Sigma_plus. apply Sigma_ext. intros y Hy.
    rewrite (HD y x) by auto. rewrite <- !Qcmult_plus_distr_r. f_equal. rewrite <- !Sigma_plus. apply Sigma_ext. intros i Hi. unfold dV, one_index4. rewrite <- !Sigma_plus.
    apply Sigma_ext. intros o Ho.
    rewrite (eight_qp no V (x + ni)%nat o i (y + ni)%nat), (eight_sr no V o (x + ni)%nat i (y + ni)%nat), (eight_swap no V (x + ni)%nat i o (y + ni)%nat) by (auto; lia).
    rewrite (eight_swap no V (x + ni)%nat i i o), (eight_qp no V i o (x + ni)%nat i), (eight_sr no V o i (x + ni)%nat i) by (auto; lia). ring.
  Qed.
  Lemma resp7 : Sigma na (fun v => Sigma na (fun w => Sigma na (fun x => Sigma na (fun y => D2 v w x y * shift4 ni dV v w x y)))) = two * (two * rb4).
  Proof.
    unfold rb4.
    set (f := fun v w x y => D2 v w x y * Sigma no (fun o => K (v + ni)%nat o * V o (w + ni)%nat (x + ni)%nat (y + ni)%nat)).
    set (g := fun v w => Sigma na (fun x => Sigma na (fun y => f v w x y))).
    set (h := fun v w x y => f v w x y + f w v y x).
    transitivity (Sigma na (fun v => Sigma na (fun w => Sigma na (fun x => Sigma na (fun y => h v w x y + h x y v w))))).
    - do 2 (apply Sigma_ext2; intros). rename i into v, j into w, i0 into x, j0 into y. unfold h, f.
      rewrite <- (four_flip na D2 v w x y), <- (four_flip na D2 x y v w), (four_swap na D2 x y v w) by auto.
      rewrite <- !Qcmult_plus_distr_r. f_equal. unfold shift4, dV, one_index4. rewrite <- !Sigma_plus. apply Sigma_ext. intros o Ho.
      rewrite (eight_qp no V (v + ni)%nat o), (eight_swap no V (v + ni)%nat (w + ni)%nat o (y + ni)%nat), (eight_swap no V (v + ni)%nat (w + ni)%nat (x + ni)%nat o), (eight_qp no V (x + ni)%nat o) by (auto; lia).
      rewrite (eight_sr no V o (v + ni)%nat (x + ni)%nat), (eight_sr no V o (x + ni)%nat (v + ni)%nat) by (auto; lia). ring.
    - transitivity (two * Sigma na (fun v => Sigma na (fun w => Sigma na (fun x => Sigma na (fun y => h v w x y))))).
      + rewrite (Sigma_ext2 na na _ (fun v w => Sigma na (fun x => Sigma na (fun y => h v w x y)) + Sigma na (fun x => Sigma na (fun y => h x y v w)))).
        2:{ intros v w _ _. rewrite <- Sigma_plus. apply Sigma_ext. intros x _. apply Sigma_plus. }
        rewrite (Sigma_ext na _ (fun v => Sigma na (fun w => Sigma na (fun x => Sigma na (fun y => h v w x y))) + Sigma na (fun w => Sigma na (fun x => Sigma na (fun y => h x y v w))))) by (intros; apply Sigma_plus).
        rewrite Sigma_plus.
        assert (E : Sigma na (fun v => Sigma na (fun w => Sigma na (fun x => Sigma na (fun y => h x y v w)))) = Sigma na (fun v => Sigma na (fun w => Sigma na (fun x => Sigma na (fun y => h v w x y))))).
        { rewrite (Sigma_ext na (fun v => Sigma na (fun w => Sigma na (fun x => Sigma na (fun y => h x y v w)))) (fun v => Sigma na (fun x => Sigma na (fun y => Sigma na (fun w => h x y v w))))) by (intros; apply Sigma_swap3).
          apply Sigma_swap3. }
        rewrite E. unfold two. ring.
      + f_equal. transitivity (Sigma na (fun v => Sigma na (fun w => g v w + g w v))).
        * apply Sigma_ext2. intros v w _ _. unfold g, h. rewrite (Sigma_swap na na (fun x y => f w v x y)). rewrite <- Sigma_plus. apply Sigma_ext. intros x _. apply Sigma_plus.
        * rewrite Sigma_sym. reflexivity.
  Qed.

  Definition response : Qc :=
    two * (two * ra1) + two * (two * (two * ra2)) - two * (two * ra3) + two * rb1 + two * (two * rb2 + two * ra4) - (two * rb3 + two * ra5) + two * (two * rb4).
  Lemma energy_response : total_energy ni na dT dV D D2 = response.
  Proof.
    unfold total_energy, core_energy, valence_energy, response. rewrite resp7, Sigma_scale, resp1.
    rewrite (Sigma_ext ni _ (fun i => two * Sigma ni (fun j => dV i i j j) - Sigma ni (fun j => dV i j j i))).
    2:{ intros i _. rewrite <- Sigma_scale, <- Sigma_minus. reflexivity. }
    rewrite Sigma_minus, Sigma_scale, resp2, resp3.
    rewrite (Sigma_ext2 na na _ (fun x y => D x y * shift2 ni dT x y + (two * (D x y * Sigma ni (fun i => dV (x + ni)%nat (y + ni)%nat i i)) - D x y * Sigma ni (fun i => dV (x + ni)%nat i i (y + ni)%nat)))).
    2:{ intros x y _ _. unfold shift2, inactive_fock. rewrite Sigma_minus, Sigma_scale. ring. }
    rewrite (Sigma_ext na _ (fun x => Sigma na (fun y => D x y * shift2 ni dT x y) + (two * Sigma na (fun y => D x y * Sigma ni (fun i => dV (x + ni)%nat (y + ni)%nat i i)) - Sigma na (fun y => D x y * Sigma ni (fun i => dV (x + ni)%nat i i (y + ni)%nat))))).
    2:{ intros x _. rewrite Sigma_plus, Sigma_minus, Sigma_scale. reflexivity. }
    rewrite Sigma_plus, Sigma_minus, Sigma_scale, resp4, resp5, resp6. ring.
  Qed.
  Lemma fock_response : Sigma (ni + na) (fun p => Sigma no (fun o => two * (K p o * generalized_fock ni na T V D D2 p o))) = response.
  Proof.
    rewrite Sigma_split.
    rewrite (Sigma_ext ni _ (fun i => two * (two * Sigma no (fun o => K i o * T o i)) + two * (two * (two * Sigma ni (fun j => Sigma no (fun o => K i o * V o i j j)))) - two * (two * Sigma ni (fun j => Sigma no (fun o => K i o * V o j j i)))
       + (two * (two * Sigma na (fun x => Sigma na (fun y => D x y * Sigma no (fun o => K i o * V o i (x + ni)%nat (y + ni)%nat))))
          - two * Sigma na (fun x => Sigma na (fun y => D x y * Sigma no (fun o => K i o * V o (y + ni)%nat (x + ni)%nat i)))))).
    2:{ intros i Hi. unfold generalized_fock. destruct (Nat.ltb_spec i ni); [|lia]. unfold inactive_fock, active_fock.
      rewrite (Sigma_ext no _ (fun o => two * (two * (K i o * T o i)) + two * (two * (two * (K i o * Sigma ni (fun j => V o i j j)))) - two * (two * (K i o * Sigma ni (fun j => V o j j i)))
        + (two * (two * (K i o * Sigma na (fun x => Sigma na (fun y => D x y * V o i (x + ni)%nat (y + ni)%nat)))) - two * (K i o * Sigma na (fun x => Sigma na (fun y => D x y * V o (y + ni)%nat (x + ni)%nat i)))))).
      2:{ intros o Ho. rewrite Sigma_minus, Sigma_scale.
        rewrite (Sigma_ext na (fun v => Sigma na (fun w => D v w * (V o i (v + ni)%nat (w + ni)%nat - half * V o (w + ni)%nat (v + ni)%nat i)))
          (fun x => Sigma na (fun y => D x y * V o i (x + ni)%nat (y + ni)%nat) - half * Sigma na (fun y => D x y * V o (y + ni)%nat (x + ni)%nat i))).
        2:{ intros x _. rewrite <- Sigma_scale, <- Sigma_minus. apply Sigma_ext. intros y _. ring. }
        rewrite Sigma_minus, Sigma_scale. set (z := Sigma na (fun x => Sigma na (fun y => D x y * V o (y + ni)%nat (x + ni)%nat i))).
        transitivity (two * (two * (K i o * T o i)) + two * (two * (two * (K i o * Sigma ni (fun j => V o i j j)))) - two * (two * (K i o * Sigma ni (fun j => V o j j i)))
           + (two * (two * (K i o * Sigma na (fun x => Sigma na (fun y => D x y * V o i (x + ni)%nat (y + ni)%nat)))) - two * (K i o * (half * (two * z))))); [ring|]. rewrite two_half. reflexivity. }
      rewrite Sigma_plus, !Sigma_minus, Sigma_plus, !Sigma_scale. rewrite !Sigma_pull.
      assert (E : forall g, Sigma na (fun x => Sigma no (fun o => K i o * Sigma na (fun y => D x y * g o x y))) = Sigma na (fun x => Sigma na (fun y => D x y * Sigma no (fun o => K i o * g o x y)))).
      { intros g. apply Sigma_ext. intros x _. rewrite Sigma_pull. apply Sigma_ext. intros y _. rewrite <- Sigma_scale. apply Sigma_ext. intros o _. ring. }
      rewrite (E (fun o x y => V o i (x + ni)%nat (y + ni)%nat)), (E (fun o x y => V o (y + ni)%nat (x + ni)%nat i)). reflexivity. }
    rewrite Sigma_plus, !Sigma_minus, Sigma_plus, !Sigma_scale.
    assert (E : forall g, Sigma ni (fun i => Sigma na (fun x => Sigma na (fun y => D x y * Sigma no (fun o => K i o * g i o x y)))) = Sigma na (fun x => Sigma na (fun y => D x y * Sigma ni (fun i => Sigma no (fun o => K i o * g i o x y))))).
    { intros g. rewrite Sigma_swap3. apply Sigma_ext2. intros x y _ _. apply Sigma_scale. }
    rewrite (E (fun i o x y => V o i (x + ni)%nat (y + ni)%nat)), (E (fun i o x y => V o (y + ni)%nat (x + ni)%nat i)). clear E.
    rewrite (Sigma_ext na (fun v => Sigma no (fun o => two * (K (v + ni)%nat o * generalized_fock ni na T V D D2 (v + ni)%nat o))) (fun v => two * Sigma na (fun y => D y v * Sigma no (fun o => K (v + ni)%nat o * T o (y + ni)%nat))
       + (two * (two * Sigma na (fun y => D y v * Sigma ni (fun i => Sigma no (fun o => K (v + ni)%nat o * V o (y + ni)%nat i i)))) - two * Sigma na (fun y => D y v * Sigma ni (fun i => Sigma no (fun o => K (v + ni)%nat o * V o i i (y + ni)%nat))))
       + two * (two * Sigma na (fun w => Sigma na (fun x => Sigma na (fun y => D2 v w x y * Sigma no (fun o => K (v + ni)%nat o * V o (w + ni)%nat (x + ni)%nat (y + ni)%nat))))))).
    2:{ intros v Hv. cbv beta. unfold generalized_fock. destruct (Nat.ltb_spec (v + ni)%nat ni); [lia|]. replace (v + ni - ni)%nat with v by lia. unfold inactive_fock, q_matrix.
      rewrite (Sigma_ext no _ (fun o => two * (K (v + ni)%nat o * Sigma na (fun y => D y v * T o (y + ni)%nat)) +
         (two * (two * (K (v + ni)%nat o * Sigma na (fun y => D y v * Sigma ni (fun i => V o (y + ni)%nat i i)))) - two * (K (v + ni)%nat o * Sigma na (fun y => D y v * Sigma ni (fun i => V o i i (y + ni)%nat)))) +
         two * (two * (K (v + ni)%nat o * Sigma na (fun w => Sigma na (fun x => Sigma na (fun y => D2 v w x y * V o (w + ni)%nat (x + ni)%nat (y + ni)%nat))))))).
      2:{ intros o Ho.
        rewrite (Sigma_ext na (fun y => (T o (y + ni)%nat + Sigma ni (fun i => two * V o (y + ni)%nat i i - V o i i (y + ni)%nat)) * D y v)
          (fun y => D y v * T o (y + ni)%nat + (two * (D y v * Sigma ni (fun i => V o (y + ni)%nat i i)) - D y v * Sigma ni (fun i => V o i i (y + ni)%nat)))).
        2:{ intros y _. rewrite Sigma_minus, Sigma_scale. ring. }
        rewrite Sigma_plus, Sigma_minus, Sigma_scale. ring. }
      rewrite !Sigma_plus, !Sigma_minus, !Sigma_scale. rewrite !(Sigma_pull no na (fun o => K (v + ni)%nat o)).
      assert (E1 : Sigma na (fun j => Sigma no (fun o => K (v + ni)%nat o * (D j v * T o (j + ni)%nat))) = Sigma na (fun y => D y v * Sigma no (fun o => K (v + ni)%nat o * T o (y + ni)%nat))).
      { apply Sigma_ext. intros y _. rewrite <- Sigma_scale. apply Sigma_ext. intros o _. ring. }
      assert (E2 : forall g, Sigma na (fun j => Sigma no (fun o => K (v + ni)%nat o * (D j v * Sigma ni (fun i => g o i j)))) = Sigma na (fun y => D y v * Sigma ni (fun i => Sigma no (fun o => K (v + ni)%nat o * g o i y)))).
      { intros g. apply Sigma_ext. intros y _. rewrite <- Sigma_pull, <- Sigma_scale. apply Sigma_ext. intros o _. ring. }
      rewrite E1, (E2 (fun o i y => V o (y + ni)%nat i i)), (E2 (fun o i y => V o i i (y + ni)%nat)).
      assert (E3 : Sigma na (fun j => Sigma no (fun o => K (v + ni)%nat o * Sigma na (fun x => Sigma na (fun y => D2 v j x y * V o (j + ni)%nat (x + ni)%nat (y + ni)%nat)))) =
         Sigma na (fun w => Sigma na (fun x => Sigma na (fun y => D2 v w x y * Sigma no (fun o => K (v + ni)%nat o * V o (w + ni)%nat (x + ni)%nat (y + ni)%nat))))).
      { apply Sigma_ext. intros w _. rewrite Sigma_pull. apply Sigma_ext. intros x _. rewrite Sigma_pull. apply Sigma_ext. intros y _. rewrite <- Sigma_scale. apply Sigma_ext. intros o _. ring. }
      rewrite E3. reflexivity. }
    rewrite !Sigma_plus, !Sigma_minus, !Sigma_scale. unfold response, ra1, ra2, ra3, ra4, ra5, rb1, rb2, rb3, rb4. ring.
  Qed.
  Lemma linear_response : total_energy ni na dT dV D D2 = Sigma (ni + na) (fun p => Sigma no (fun o => two * (K p o * generalized_fock ni na T V D D2 p o))).
  Proof. rewrite fock_response. apply energy_response. Qed.
End Response.
