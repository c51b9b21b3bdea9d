(** Frozen determinants. *)
From Coq Require Import QArith Qcanon.
From Verif Require Import Base Bits BitsProofs SD Spec SDProofs SDProofs2 SDProofs4 SDProofs5 Sums
  FockSpec FockProofs SlaterCondon Ham HamProofs HamProofs2 HamProofs3 FreezeSpec FreezeProofs.
Local Open Scope nat_scope.

Lemma tb_freeze_string ni s p : tb (freeze_string ni s) p = (p <? ni) || tb s (p - ni).
Proof.
  unfold freeze_string. assert (P : (2 ^ N.of_nat ni <> 0)%N) by (apply N.pow_nonzero; discriminate).
  set (x := (2 ^ N.of_nat ni - 1 + 2 ^ N.of_nat ni * s)%N).
  destruct (Nat.ltb_spec p ni); cbn [orb].
  - pose proof (tb_mod x ni p) as M. destruct (Nat.ltb_spec p ni); [|lia]. cbn [andb] in M. rewrite <- M.
    unfold x. rewrite N.mul_comm, N.mod_add by auto. rewrite N.mod_small by lia.
    replace (2 ^ N.of_nat ni - 1)%N with (N.ones (N.of_nat ni)) by (rewrite N.ones_equiv; lia).
    unfold tb. apply N.ones_spec_low. lia.
  - replace p with (p - ni + ni) at 1 by lia. rewrite <- tb_div. f_equal.
    unfold x. rewrite N.mul_comm, N.div_add by auto. rewrite N.div_small by lia. lia.
Qed.

Lemma classic_conn1 b k x y : conn1 b k x y \/ ~ conn1 b k x y.
Proof.
  destruct (ok1 k x y && (flipb (flipb k y) x =? b)%N) eqn:E.
  - left. apply andb_prop in E. destruct E as [E1 E2]. apply ok1_spec in E1. apply N.eqb_eq in E2. split; [tauto|]. split; [tauto|].
    intros j. rewrite <- E2, !tb_flip. reflexivity.
  - right. intros (A & B & C). rewrite (proj2 (ok1_spec k x y)) in E by auto. cbn [andb] in E. apply N.eqb_neq in E. apply E.
    apply tb_ext. intros j. rewrite !tb_flip. symmetry. apply C.
Qed.
Lemma classic_conn2 b k x z w y : conn2 b k x z w y \/ ~ conn2 b k x z w y.
Proof.
  destruct (ok2 k x z w y && (flipb (flipb (flipb (flipb k y) w) z) x =? b)%N) eqn:E.
  - left. apply andb_prop in E. destruct E as [E1 E2]. apply ok2_spec in E1. apply N.eqb_eq in E2. unfold conn2. intuition auto;
    rewrite <- E2, !tb_flip; reflexivity.
  - right. intros (A1 & A2 & A3 & A4 & A5 & A6 & C). rewrite (proj2 (ok2_spec k x z w y)) in E by tauto. cbn [andb] in E. apply N.eqb_neq in E. apply E.
    apply tb_ext. intros j. rewrite !tb_flip. symmetry. apply C.
Qed.

Lemma so_lt W s p t q : p < W / 2 -> q < W / 2 -> (so W s p <? so W t q) = if eqb s t then p <? q else t.
  Proof.
    intros A B. unfold so. destruct s, t; cbn [eqb]; try reflexivity.
    - destruct (Nat.ltb_spec (p + W / 2) (q + W / 2)), (Nat.ltb_spec p q); try lia; reflexivity.
    - apply Nat.ltb_ge. lia.
    - apply Nat.ltb_lt. lia.
  Qed.

Section FREEZE.
  Variables (W W2 ni na : nat).
  Hypothesis (Hi : ni + na <= W2 / 2) (Hw : na <= W / 2).

  Lemma in_space_bits b s p : in_space W na b -> s = true \/ p < W / 2 -> na <= p -> tb b (so W s p) = false.
  Proof. intros [A B] C H. rewrite tb_str by auto. destruct s; [apply B|apply A]; auto. Qed.
  Lemma str_freeze b sg : in_space W na b -> str W2 sg (freeze W W2 ni b) = freeze_string ni (str W sg b).
  Proof. clear Hw.
    intros [A B]. assert (P : (2 ^ N.of_nat (W2 / 2) <> 0)%N) by (apply N.pow_nonzero; discriminate).
    assert (L : (freeze_string ni (alpha W b) < 2 ^ N.of_nat (W2 / 2))%N).
    { assert (E : freeze_string ni (alpha W b) = (freeze_string ni (alpha W b) mod 2 ^ N.of_nat (W2 / 2))%N).
      { apply tb_ext. intros i. rewrite tb_mod, tb_freeze_string. destruct (Nat.ltb_spec i (W2 / 2)); cbn [andb]; auto.
        destruct (Nat.ltb_spec i ni); [lia|]. cbn [orb]. apply A. lia. }
      rewrite E. apply N.mod_lt. auto. }
    unfold freeze. destruct sg; cbn [str].
    - unfold beta at 1. rewrite N.mul_comm, N.div_add by auto. rewrite N.div_small by auto. lia.
    - unfold alpha at 1. rewrite N.mul_comm, N.mod_add by auto. apply N.mod_small. auto.
  Qed.
  Lemma tb_frozen b s p : in_space W na b -> s = true \/ p < W2 / 2 -> p < ni -> tb (freeze W W2 ni b) (so W2 s p) = true.
  Proof. clear Hw.
    intros S H L. rewrite tb_str by auto. rewrite str_freeze, tb_freeze_string by auto. destruct (Nat.ltb_spec p ni); [reflexivity|lia].
  Qed.
  Lemma tb_active b s p : in_space W na b -> p < na -> tb (freeze W W2 ni b) (so W2 s (p + ni)) = tb b (so W s p).
  Proof.
    intros S L. rewrite tb_str by (right; lia). rewrite str_freeze, tb_freeze_string by auto. destruct (Nat.ltb_spec (p + ni) ni); [lia|]. cbn [orb].
    replace (p + ni - ni) with p by lia. symmetry. apply tb_str. right. lia.
  Qed.
  Lemma tb_empty b s p : in_space W na b -> s = true \/ p < W2 / 2 -> ni + na <= p -> tb (freeze W W2 ni b) (so W2 s p) = false.
  Proof. clear Hw.
    intros [A B] H L. rewrite tb_str by auto. rewrite str_freeze, tb_freeze_string by (split; auto). destruct (Nat.ltb_spec p ni); [lia|]. cbn [orb].
    destruct s; [apply B|apply A]; lia.
  Qed.
  Lemma freeze_in_space b no : in_space W na b -> ni + na <= no -> in_space W2 no (freeze W W2 ni b).
  Proof. clear Hw.
    intros S H. assert (G : forall sg, wf no (str W2 sg (freeze W W2 ni b))).
    { intros sg i Hh. rewrite str_freeze by auto. rewrite tb_freeze_string. destruct (Nat.ltb_spec i ni); [lia|]. cbn [orb].
      destruct S as [A B]. destruct sg; [apply B|apply A]; lia. }
    split; [apply (G false)|apply (G true)].
  Qed.
  Lemma freeze_inj b k : in_space W na b -> in_space W na k -> freeze W W2 ni b = freeze W W2 ni k -> b = k.
  Proof.
    intros Sb Sk E. apply tb_ext. intros i. destruct (so_cover W i) as (s & p & -> & C).
    destruct (Nat.ltb_spec p na) as [L|L].
    - rewrite <- !(tb_active _ s p) by auto. congruence.
    - rewrite !in_space_bits by auto. reflexivity.
  Qed.
  (** the parity of the electrons below an active orbital *)
  Lemma parity_low b p : in_space W na b -> p <= ni -> parity_below (freeze W W2 ni b) p = Nat.odd p.
  Proof.
    intros S. induction p as [|p IH]; intros H. { reflexivity. }
    rewrite parity_below_S, IH by lia. change p with (so W2 false p) at 2. rewrite tb_frozen by (auto; right; lia).
    rewrite Nat.odd_succ, <- Nat.negb_odd. destruct (Nat.odd p); reflexivity.
  Qed.
  Lemma parity_alpha b p : in_space W na b -> p <= na ->
    parity_below (freeze W W2 ni b) (p + ni) = xorb (parity_below b p) (Nat.odd ni).
  Proof.
    intros S. induction p as [|p IH]; intros H. { cbn [Nat.add]. rewrite parity_low by auto. destruct (Nat.odd ni); reflexivity. }
    cbn [Nat.add]. rewrite !parity_below_S, IH by lia. change (p + ni) with (so W2 false (p + ni)). rewrite tb_active by (auto; lia).
    cbn [so]. destruct (parity_below b p), (Nat.odd ni), (tb b p); reflexivity.
  Qed.
  Lemma parity_const b p q : (forall i, p <= i < q -> tb b i = false) -> p <= q -> parity_below b q = parity_below b p.
  Proof.
    intros H L. induction L as [|q L IH]; auto. rewrite parity_below_S, H by lia. rewrite xorb_false_r. apply IH. intros i Hh. apply H. lia.
  Qed.
  Lemma parity_mid b : in_space W na b -> parity_below (freeze W W2 ni b) (W2 / 2) = xorb (parity_below b (W / 2)) (Nat.odd ni).
  Proof.
    intros S. rewrite (parity_const _ (na + ni) (W2 / 2)); [|intros i Hh; change i with (so W2 false i); apply tb_empty; auto; [right|]; lia|lia].
    rewrite parity_alpha by auto. f_equal. symmetry. apply parity_const; auto. intros i Hh. change i with (so W false i). apply in_space_bits; auto; [right|]; lia.
  Qed.
  Lemma parity_beta_low b q : in_space W na b -> q <= ni ->
    parity_below (freeze W W2 ni b) (q + W2 / 2) = xorb (xorb (parity_below b (W / 2)) (Nat.odd ni)) (Nat.odd q).
  Proof.
    intros S. induction q as [|q IH]; intros H. { cbn [Nat.add]. rewrite parity_mid by auto. cbn [Nat.odd]. rewrite xorb_false_r. reflexivity. }
    cbn [Nat.add]. rewrite parity_below_S, IH by lia. change (q + W2 / 2) with (so W2 true q). rewrite tb_frozen by (auto; lia).
    rewrite Nat.odd_succ, <- Nat.negb_odd. destruct (parity_below b (W / 2)), (Nat.odd ni), (Nat.odd q); reflexivity.
  Qed.
  Lemma parity_beta b p : in_space W na b -> p <= na -> parity_below (freeze W W2 ni b) (p + ni + W2 / 2) = parity_below b (p + W / 2).
  Proof.
    intros S. induction p as [|p IH]; intros H.
    - cbn [Nat.add]. rewrite parity_beta_low by auto. destruct (parity_below b (W / 2)), (Nat.odd ni); reflexivity.
    - cbn [Nat.add]. rewrite !parity_below_S, IH by lia. f_equal. change (p + ni + W2 / 2) with (so W2 true (p + ni)). rewrite tb_active by (auto; lia). reflexivity.
  Qed.
  Lemma parity_freeze b s p : in_space W na b -> p < na ->
    parity_below (freeze W W2 ni b) (so W2 s (p + ni)) = xorb (parity_below b (so W s p)) (negb s && Nat.odd ni).
  Proof.
    intros S H. destruct s; cbn [so negb andb].
    - rewrite parity_beta, xorb_false_r by (auto; lia). reflexivity.
    - apply parity_alpha; auto. lia.
  Qed.

  (** ** brackets *)
  Definition shifted (x : bool * nat) : nat := so W2 (fst x) (snd x + ni).
  Definition plain (x : bool * nat) : nat := so W (fst x) (snd x).
  Lemma flips_freeze b k (ops : list (bool * nat)) : in_space W na b -> in_space W na k -> (forall x, In x ops -> snd x < na) ->
    (forall j, tb (freeze W W2 ni b) j = fold_left (fun a x => xorb a (j =? shifted x)) ops (tb (freeze W W2 ni k) j)) <->
    (forall j, tb b j = fold_left (fun a x => xorb a (j =? plain x)) ops (tb k j)).
  Proof.
    intros Sb Sk Ho.
    assert (N0 : forall j v (o : list (bool * nat)) (g : bool * nat -> nat), (forall x, In x o -> j <> g x) -> fold_left (fun a x => xorb a (j =? g x)) o v = v).
    { intros j v o g. revert v. induction o as [|x o IH]; intros v H; cbn [fold_left]; auto.
      rewrite IH by (intros; apply H; right; auto). destruct (Nat.eqb_spec j (g x)) as [E|_]; [exfalso; revert E; apply H; left; auto|]. apply xorb_false_r. }
    assert (SH : forall s p v, p < na ->
       fold_left (fun a x => xorb a (so W2 s (p + ni) =? shifted x)) ops v = fold_left (fun a x => xorb a (so W s p =? plain x)) ops v).
    { intros s p v C1. revert v. clear N0. induction ops as [|x o IH]; intros v; cbn [fold_left]; auto.
      rewrite IH by (intros; apply Ho; right; auto). f_equal. f_equal. unfold shifted, plain.
      assert (snd x < na) by (apply Ho; left; auto).
      rewrite !so_eqb by (auto; try right; lia). f_equal. destruct (Nat.eqb_spec (p + ni) (snd x + ni)), (Nat.eqb_spec p (snd x)); try lia; reflexivity. }
    split; intros E j.
    - destruct (so_cover W j) as (s & p & -> & C). destruct (Nat.ltb_spec p na) as [L|L].
      + specialize (E (so W2 s (p + ni))). rewrite SH in E by auto. rewrite !tb_active in E by auto. exact E.
      + rewrite N0; [rewrite !in_space_bits by auto; reflexivity|]. intros x Hx F. unfold plain in F.
        assert (snd x < na) by (apply Ho; auto). apply Nat.eqb_eq in F. rewrite so_eqb in F by (auto; lia).
        apply andb_prop in F. destruct F as [_ F]. apply Nat.eqb_eq in F. lia.
    - destruct (so_cover W2 j) as (s & p & -> & C).
      assert (Out : p < ni \/ ni + na <= p -> fold_left (fun a x => xorb a (so W2 s p =? shifted x)) ops (tb (freeze W W2 ni k) (so W2 s p)) = tb (freeze W W2 ni k) (so W2 s p)).
      { intros D. apply N0. intros x Hx F. unfold shifted in F.
        assert (snd x < na) by (apply Ho; auto). apply Nat.eqb_eq in F. rewrite so_eqb in F by (auto; lia).
        apply andb_prop in F. destruct F as [_ F]. apply Nat.eqb_eq in F. lia. }
      destruct (Nat.ltb_spec p ni) as [L|L]; [|destruct (Nat.ltb_spec p (ni + na)) as [L'|L']].
      + rewrite Out by auto. rewrite !tb_frozen by auto. reflexivity.
      + replace p with (p - ni + ni) by lia. rewrite SH by lia. rewrite !tb_active by (auto; lia). apply E.
      + rewrite Out by auto. rewrite !tb_empty by auto. reflexivity.
  Qed.
  Lemma shifted_lt x y : snd x < na -> snd y < na -> (shifted x <? shifted y) = (plain x <? plain y).
  Proof.
    intros A B. unfold shifted, plain. rewrite !so_lt by lia. destruct (eqb (fst x) (fst y)); auto.
    destruct (Nat.ltb_spec (snd x + ni) (snd y + ni)), (Nat.ltb_spec (snd x) (snd y)); try lia; reflexivity.
  Qed.
  Lemma shifted_eq x y : snd x < na -> snd y < na -> (shifted x = shifted y <-> plain x = plain y).
  Proof.
    intros A B. rewrite <- !Nat.eqb_eq. unfold shifted, plain. rewrite !so_eqb by (auto; lia).
    destruct (Nat.eqb_spec (snd x + ni) (snd y + ni)), (Nat.eqb_spec (snd x) (snd y)); try lia; tauto.
  Qed.
  Lemma tb_shifted b x : in_space W na b -> snd x < na -> tb (freeze W W2 ni b) (shifted x) = tb b (plain x).
  Proof. intros S H. unfold shifted, plain. apply tb_active; auto. Qed.
  Lemma braket1_freeze b k x y : in_space W na b -> in_space W na k -> snd x < na -> snd y < na -> fst x = fst y ->
    braket (freeze W W2 ni b) [Cre (shifted x); Ann (shifted y)] (freeze W W2 ni k) = braket b [Cre (plain x); Ann (plain y)] k.
  Proof.
    intros Sb Sk Hx Hy Es.
    assert (C : conn1 (freeze W W2 ni b) (freeze W W2 ni k) (shifted x) (shifted y) <-> conn1 b k (plain x) (plain y)).
    { unfold conn1. rewrite !tb_shifted, shifted_eq by auto.
      pose proof (flips_freeze b k [y; x] Sb Sk) as F. cbn [fold_left] in F. rewrite F; [tauto|].
      intros z [<-|[<-|[]]]; auto. }
    destruct (classic_conn1 b k (plain x) (plain y)) as [Y|Y].
    - rewrite !braket1_conn by tauto. f_equal. unfold sg1. rewrite shifted_lt by auto. unfold shifted.
      rewrite !parity_freeze by auto. unfold plain. rewrite Es. 
      destruct (parity_below k (so W (fst y) (snd y))), (parity_below k (so W (fst y) (snd x))), (negb (fst y) && Nat.odd ni);
        destruct (so W (fst y) (snd y) <? so W (fst y) (snd x)); reflexivity.
    - rewrite !braket1_noconn by tauto. reflexivity.
  Qed.
  Lemma braket2_freeze b k x z w y : in_space W na b -> in_space W na k -> snd x < na -> snd y < na -> snd z < na -> snd w < na ->
    fst x = fst y -> fst z = fst w ->
    braket (freeze W W2 ni b) [Cre (shifted x); Cre (shifted z); Ann (shifted w); Ann (shifted y)] (freeze W W2 ni k) =
    braket b [Cre (plain x); Cre (plain z); Ann (plain w); Ann (plain y)] k.
  Proof.
    intros Sb Sk Hx Hy Hz Hv Es Et.
    assert (C : conn2 (freeze W W2 ni b) (freeze W W2 ni k) (shifted x) (shifted z) (shifted w) (shifted y) <->
      conn2 b k (plain x) (plain z) (plain w) (plain y)).
    { unfold conn2. rewrite !tb_shifted, !shifted_eq by auto.
      pose proof (flips_freeze b k [y; w; z; x] Sb Sk) as F. cbn [fold_left] in F. rewrite F; [tauto|].
      intros u [<-|[<-|[<-|[<-|[]]]]]; auto. }
    destruct (classic_conn2 b k (plain x) (plain z) (plain w) (plain y)) as [Y|Y].
    - rewrite !braket2_conn by tauto. f_equal. unfold sg2. rewrite !shifted_lt by auto. unfold shifted.
      rewrite !parity_freeze by auto. unfold plain. rewrite Es, Et.
      generalize (so W (fst y) (snd y) <? so W (fst w) (snd w)) (so W (fst y) (snd y) <? so W (fst w) (snd z))
        (so W (fst w) (snd w) <? so W (fst w) (snd z)) (so W (fst y) (snd y) <? so W (fst y) (snd x))
        (so W (fst w) (snd w) <? so W (fst y) (snd x)) (so W (fst w) (snd z) <? so W (fst y) (snd x))
        (parity_below k (so W (fst y) (snd y))) (parity_below k (so W (fst w) (snd w))) (parity_below k (so W (fst w) (snd z)))
        (parity_below k (so W (fst y) (snd x))) (negb (fst y) && Nat.odd ni) (negb (fst w) && Nat.odd ni).
      intros [] [] [] [] [] [] [] [] [] [] [] []; reflexivity.
    - rewrite !braket2_noconn by tauto. reflexivity.
  Qed.
End FREEZE.
