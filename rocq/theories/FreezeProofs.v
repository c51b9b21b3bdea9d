(** Freezing doubly occupied orbitals: their field and their energy replace them in every
    matrix element of the Hamiltonian. *)
From Coq Require Import QArith Qcanon Sorting.Permutation.
From Verif Require Import Base Bits BitsProofs SD Spec SDProofs SDProofs2 SDProofs4 SDProofs5 Sums
  FockSpec FockProofs SlaterCondon Ham HamProofs HamProofs2.
Local Open Scope nat_scope.

Definition delta (bra ket : N) : Qc := if (bra =? ket)%N then 1%Qc else 0%Qc.
Local Notation two_ := (1 + 1)%Qc.
Definition sum2 (l m : list nat) (t : nat -> nat -> Qc) : Qc := sum l (fun x => sum m (fun y => t x y)).
Definition sum4 (l : list nat) (t : nat -> nat -> nat -> nat -> Qc) : Qc :=
  sum l (fun x => sum l (fun y => sum l (fun z => sum l (fun w => t x y z w)))).

Lemma sum2_cons c l t : sum2 (c :: l) (c :: l) t = (t c c + sum l (fun y => t c y) + (sum l (fun x => t x c) + sum2 l l t))%Qc.
Proof. unfold sum2. cbn [sum]. rewrite sum_plus. reflexivity. Qed.

Section ONE.
  Variables (l : list nat) (c : nat) (bra ket : N).
  Hypothesis (Hc : ~ In c l) (Tb : tb bra c = true) (Tk : tb ket c = true).
  Notation B1 x y := (braket bra [Cre x; Ann y] ket).
  Notation B2 x z w y := (braket bra [Cre x; Cre z; Ann w; Ann y] ket).

  Lemma b1_cc : B1 c c = delta bra ket.
  Proof.
    rewrite braket1_val. unfold ok1. rewrite Tk, tb_flip_same, Tk. cbn [negb andb]. rewrite flip_flip.
    unfold delta. rewrite N.eqb_sym. destruct (bra =? ket)%N; auto. rewrite sg1_diag. reflexivity.
  Qed.
  Lemma b1_cy y : y <> c -> B1 c y = 0%Qc.
  Proof. intros H. apply braket1_noconn. intros (_ & [E|E] & _); congruence. Qed.
  Lemma b1_xc x : x <> c -> B1 x c = 0%Qc.
  Proof.
    intros H. apply braket1_noconn. intros (_ & _ & E). specialize (E c). rewrite Tb, Tk, Nat.eqb_refl in E.
    destruct (Nat.eqb_spec c x); [congruence|discriminate].
  Qed.
  Lemma flip4_out z w : z <> c -> w <> c -> flipb (flipb (flipb (flipb ket c) w) z) c = flipb (flipb ket w) z.
  Proof.
    intros Hz Hw. rewrite (flip_comm _ z c), (flip_comm _ w c), flip_flip. reflexivity.
  Qed.
  Lemma lt_asym_bool a b : a <> b -> xorb (a <? b) (b <? a) = true.
  Proof. intros H. destruct (Nat.ltb_spec a b), (Nat.ltb_spec b a); try reflexivity; lia. Qed.
  (* both operators of one pair act on c *)
  Lemma b2_outer z w : z <> c -> w <> c -> B2 c z w c = B1 z w.
  Proof.
    intros Hz Hw. rewrite braket2_val, braket1_val, flip4_out by auto.
    assert (O : ok2 ket c z w c = ok1 ket z w).
    { apply eq_true_iff_eq. rewrite ok2_spec, ok1_spec. intuition auto; try congruence. }
    rewrite O. destruct (ok1 ket z w && _); auto. f_equal. unfold sg2, sg1. rewrite Nat.ltb_irrefl.
    pose proof (lt_asym_bool c w ltac:(auto)) as X1. pose proof (lt_asym_bool c z ltac:(auto)) as X2.
    destruct (c <? w), (w <? c), (c <? z), (z <? c); try discriminate;
      destruct (parity_below ket c), (parity_below ket w), (parity_below ket z), (w <? z); reflexivity.
  Qed.
  Lemma b2_inner x y : x <> c -> y <> c -> B2 x c c y = B1 x y.
  Proof.
    intros Hx Hy. rewrite braket2_val, braket1_val.
    rewrite (flip_comm _ y c), flip_flip || rewrite flip_flip.
    assert (O : ok2 ket x c c y = ok1 ket x y).
    { apply eq_true_iff_eq. rewrite ok2_spec, ok1_spec. intuition auto; try congruence. }
    rewrite O. destruct (ok1 ket x y && _); auto. f_equal. unfold sg2, sg1. rewrite Nat.ltb_irrefl.
    pose proof (lt_asym_bool c x ltac:(auto)) as X1. pose proof (lt_asym_bool c y ltac:(auto)) as X2.
    destruct (c <? x), (x <? c), (c <? y), (y <? c); try discriminate;
      destruct (parity_below ket c), (parity_below ket x), (parity_below ket y), (y <? x); reflexivity.
  Qed.
  Lemma braket2_exch x z w y : x <> z -> B2 z x w y = (- B2 x z w y)%Qc.
  Proof.
    intros H. rewrite !braket2_val. assert (O : ok2 ket z x w y = ok2 ket x z w y).
    { apply eq_true_iff_eq. rewrite !ok2_spec. intuition auto; try congruence. }
    rewrite O, (flip_comm _ x z). destruct (ok2 ket x z w y && _); [|ring]. rewrite sg2_exch by auto. apply sgn_negb.
  Qed.
  Lemma b2_exch1 z y : z <> c -> y <> c -> B2 c z c y = (- B1 z y)%Qc.
  Proof. intros Hz Hy. rewrite (braket2_exch z c) by auto. rewrite b2_inner by auto. reflexivity. Qed.
  Lemma b2_exch2 x w : x <> c -> w <> c -> B2 x c w c = (- B1 x w)%Qc.
  Proof. intros Hx Hw. rewrite (braket2_exch c x) by auto. rewrite b2_outer by auto. reflexivity. Qed.
  (* vanishing ones *)
  Lemma b2_cre_cre w y : B2 c c w y = 0%Qc.
  Proof. apply braket2_noconn. unfold conn2. intuition congruence. Qed.
  Lemma b2_ann_ann x z : B2 x z c c = 0%Qc.
  Proof. apply braket2_noconn. unfold conn2. intuition congruence. Qed.
  Lemma b2_only_x z w y : w <> c -> y <> c -> B2 c z w y = 0%Qc.
  Proof. intros Hw Hy. apply braket2_noconn. unfold conn2. intuition congruence. Qed.
  Lemma b2_only_z x w y : w <> c -> y <> c -> B2 x c w y = 0%Qc.
  Proof. intros Hw Hy. apply braket2_noconn. unfold conn2. intuition congruence. Qed.
  Lemma b2_only_w x z y : x <> c -> z <> c -> B2 x z c y = 0%Qc.
  Proof.
    intros Hx Hz. apply braket2_noconn. intros (_ & _ & N & _ & _ & _ & E). specialize (E c).
    rewrite Tb, Tk, Nat.eqb_refl in E. destruct (Nat.eqb_spec c y), (Nat.eqb_spec c z), (Nat.eqb_spec c x); try congruence; discriminate.
  Qed.
  Lemma b2_only_y x z w : x <> c -> z <> c -> B2 x z w c = 0%Qc.
  Proof.
    intros Hx Hz. apply braket2_noconn. intros (_ & _ & N & _ & _ & _ & E). specialize (E c).
    rewrite Tb, Tk, Nat.eqb_refl in E. destruct (Nat.eqb_spec c w), (Nat.eqb_spec c z), (Nat.eqb_spec c x); try congruence; discriminate.
  Qed.

  Variables (h : nat -> nat -> Qc) (v : nat -> nat -> nat -> nat -> Qc).
  Hypothesis sym : forall x y z w, In x (c :: l) -> In y (c :: l) -> In z (c :: l) -> In w (c :: l) -> v x y z w = v z w x y.
  Definition field (x y : nat) : Qc := (h x y + v c c x y - v c y x c)%Qc.
  Lemma notc x : In x l -> x <> c.
  Proof. intros H ->. auto. Qed.
  Lemma E1_cons : E1 (c :: l) h bra ket = (h c c * delta bra ket + E1 l h bra ket)%Qc.
  Proof.
    change (E1 (c :: l) h bra ket) with (sum2 (c :: l) (c :: l) (fun x y => h x y * B1 x y)%Qc). rewrite sum2_cons, b1_cc.
    rewrite (sum_zero l (fun y => h c y * B1 c y)%Qc), (sum_zero l (fun x => h x c * B1 x c)%Qc).
    - change (E1 l h bra ket) with (sum2 l l (fun x y => h x y * B1 x y)%Qc). ring.
    - intros x Hx. rewrite b1_xc by (apply notc; auto). ring.
    - intros y Hy. rewrite b1_cy by (apply notc; auto). ring.
  Qed.
  Lemma E2_cons : E2 (c :: l) v bra ket =
    (E2 l v bra ket + two_ * sum2 l l (fun x y => (v c c x y - v c y x c) * B1 x y))%Qc.
  Proof.
    set (t x y z w := (v x y z w * B2 x z w y)%Qc).
    change (E2 (c :: l) v bra ket) with (sum2 (c :: l) (c :: l) (fun x y => sum2 (c :: l) (c :: l) (fun z w => t x y z w))).
    change (E2 l v bra ket) with (sum2 l l (fun x y => sum2 l l (fun z w => t x y z w))).
    rewrite sum2_cons.
    assert (X1 : sum2 (c :: l) (c :: l) (fun z w => t c c z w) = sum2 l l (fun z w => v c c z w * B1 z w)%Qc).
    { rewrite sum2_cons. unfold t at 1. rewrite b2_cre_cre.
      rewrite (sum_zero l (fun w => t c c c w)), (sum_zero l (fun z => t c c z c)).
      - assert (E : sum2 l l (fun z w => t c c z w) = sum2 l l (fun z w => v c c z w * B1 z w)%Qc).
        { apply sum_ext. intros z Hz. apply sum_ext. intros w Hw. unfold t. rewrite b2_outer by (apply notc; auto). reflexivity. }
        rewrite E. ring.
      - intros z Hz. unfold t. rewrite b2_ann_ann. ring.
      - intros w Hw. unfold t. rewrite b2_cre_cre. ring. }
    assert (X2 : sum l (fun y => sum2 (c :: l) (c :: l) (fun z w => t c y z w)) = (- sum2 l l (fun x y => v c y x c * B1 x y))%Qc).
    { symmetry. unfold sum2 at 1. rewrite <- sum_opp.
      assert (E : sum l (fun x => - sum l (fun y => v c y x c * B1 x y))%Qc = sum l (fun y => sum l (fun x => - (v c y x c * B1 x y)))%Qc).
      { rewrite (sum_swap l l (fun y x => - (v c y x c * B1 x y))%Qc). apply sum_ext. intros x _. symmetry. apply sum_opp. }
      rewrite E. apply sum_ext. intros y Hy. rewrite sum2_cons. unfold t at 1. rewrite b2_cre_cre.
      rewrite (sum_zero l (fun w => t c y c w)).
      2:{ intros w Hw. unfold t. rewrite b2_cre_cre. ring. }
      assert (Z : sum2 l l (fun z w => t c y z w) = 0%Qc).
      { apply sum_zero. intros z Hz. apply sum_zero. intros w Hw. unfold t. rewrite b2_only_x by (apply notc; auto). ring. }
      rewrite Z. assert (F : sum l (fun x => t c y x c) = sum l (fun x => - (v c y x c * B1 x y))%Qc).
      { apply sum_ext. intros x Hx. unfold t. rewrite b2_exch1 by (apply notc; auto). ring. }
      rewrite F. ring. }
    assert (X3 : sum l (fun x => sum2 (c :: l) (c :: l) (fun z w => t x c z w)) = (- sum2 l l (fun x y => v c y x c * B1 x y))%Qc).
    { unfold sum2 at 2. rewrite <- sum_opp. apply sum_ext. intros x Hx. rewrite sum2_cons. unfold t at 1. rewrite b2_ann_ann.
      rewrite (sum_zero l (fun z => t x c z c)).
      2:{ intros z Hz. unfold t. rewrite b2_ann_ann. ring. }
      assert (Z : sum2 l l (fun z w => t x c z w) = 0%Qc).
      { apply sum_zero. intros z Hz. apply sum_zero. intros w Hw. unfold t. rewrite b2_only_y by (apply notc; auto). ring. }
      rewrite Z. assert (F : sum l (fun w => t x c c w) = (- sum l (fun y => v c y x c * B1 x y))%Qc).
      { rewrite <- sum_opp. apply sum_ext. intros w Hw. unfold t. rewrite b2_exch2 by (apply notc; auto).
        rewrite (sym x c c w) by (cbn; auto). ring. }
      rewrite F. ring. }
    assert (X4 : sum2 l l (fun x y => sum2 (c :: l) (c :: l) (fun z w => t x y z w)) =
      (sum2 l l (fun x y => sum2 l l (fun z w => t x y z w)) + sum2 l l (fun x y => v c c x y * B1 x y))%Qc).
    { unfold sum2 at 1 3 5. rewrite <- sum_plus. apply sum_ext. intros x Hx. rewrite <- sum_plus. apply sum_ext. intros y Hy.
      rewrite sum2_cons. rewrite (sum_zero l (fun w => t x y c w)), (sum_zero l (fun z => t x y z c)).
      - unfold t at 1. rewrite b2_inner by (apply notc; auto). rewrite (sym x y c c) by (cbn; auto). ring.
      - intros z Hz. unfold t. rewrite b2_only_w by (apply notc; auto). ring.
      - intros w Hw. unfold t. rewrite b2_only_z by (apply notc; auto). ring. }
    rewrite X1, X2, X3, X4.
    assert (F : sum2 l l (fun x y => (v c c x y - v c y x c) * B1 x y)%Qc =
      (sum2 l l (fun x y => v c c x y * B1 x y) - sum2 l l (fun x y => v c y x c * B1 x y))%Qc).
    { unfold sum2. rewrite <- sum_minus. apply sum_ext. intros x _. rewrite <- sum_minus. apply sum_ext. intros y _. ring. }
    rewrite F. ring.
  Qed.
End ONE.

Definition energy (l : list nat) (h : nat -> nat -> Qc) (v : nat -> nat -> nat -> nat -> Qc) (bra ket : N) : Qc :=
  (E1 l h bra ket + half * E2 l v bra ket)%Qc.
Definition symm (l : list nat) (v : nat -> nat -> nat -> nat -> Qc) : Prop :=
  forall x y z w, In x l -> In y l -> In z l -> In w l -> v x y z w = v z w x y.
Lemma half2 : (half * (1 + 1) = 1)%Qc.
Proof. apply Qc_is_canon. reflexivity. Qed.
Lemma E1_plus l h g bra ket : E1 l (fun x y => h x y + g x y)%Qc bra ket = (E1 l h bra ket + E1 l g bra ket)%Qc.
Proof.
  unfold E1. rewrite <- sum_plus. apply sum_ext. intros x _. rewrite <- sum_plus. apply sum_ext. intros y _. ring.
Qed.
Lemma energy_cons l c bra ket h v : ~ In c l -> tb bra c = true -> tb ket c = true -> symm (c :: l) v ->
  energy (c :: l) h v bra ket = (h c c * delta bra ket + energy l (fun x y => h x y + (v c c x y - v c y x c)) v bra ket)%Qc.
Proof.
  intros Hc Tb Tk S. unfold energy. rewrite E1_cons, E2_cons, E1_plus by auto.
  change (sum2 l l _) with (E1 l (fun x y => v c c x y - v c y x c)%Qc bra ket).
  set (A := E1 l (fun x y => v c c x y - v c y x c)%Qc bra ket). set (B := E2 l v bra ket). set (C := E1 l h bra ket).
  replace (half * (B + (1 + 1) * A))%Qc with (half * B + (half * (1 + 1)) * A)%Qc by ring. rewrite half2. ring.
Qed.
(* the energy of the frozen spin orbitals and the field they exert *)
Definition frozen_energy (cs : list nat) (h : nat -> nat -> Qc) (v : nat -> nat -> nat -> nat -> Qc) : Qc :=
  (sum cs (fun c => h c c) + half * sum cs (fun c => sum cs (fun d => v c c d d - v c d d c)))%Qc.
Definition frozen_field (cs : list nat) (h : nat -> nat -> Qc) (v : nat -> nat -> nat -> nat -> Qc) (x y : nat) : Qc :=
  (h x y + sum cs (fun c => v c c x y - v c y x c))%Qc.
Lemma energy_ext l h h' v bra ket : (forall x y, In x l -> In y l -> h x y = h' x y) -> energy l h v bra ket = energy l h' v bra ket.
Proof.
  intros H. unfold energy, E1. f_equal. apply sum_ext. intros x Hx. apply sum_ext. intros y Hy. rewrite H by auto. reflexivity.
Qed.
Lemma frozen_energy_cons c cs h v : symm (c :: cs) v ->
  frozen_energy (c :: cs) h v = (h c c + frozen_energy cs (fun x y => h x y + (v c c x y - v c y x c)) v)%Qc.
Proof.
  intros S. unfold frozen_energy. cbn [sum]. rewrite !sum_plus.
  assert (E : sum cs (fun d => v d d c c - v d c c d)%Qc = sum cs (fun d => v c c d d - v c d d c)%Qc).
  { apply sum_ext. intros d Hd. rewrite (S d d c c), (S d c c d) by (cbn; auto). reflexivity. }
  rewrite E. set (X := sum cs (fun d => v c c d d - v c d d c)%Qc). set (Y := sum cs (fun a => sum cs _)). set (Z := sum cs (fun a => h a a)).
  replace (half * (v c c c c - v c c c c + X + (X + Y)))%Qc with ((half * (1 + 1)) * X + half * Y)%Qc by ring. rewrite half2. ring.
Qed.
Lemma energy_freeze cs : forall h v l bra ket, NoDup (cs ++ l) -> (forall c, In c cs -> tb bra c = true /\ tb ket c = true) -> symm (cs ++ l) v ->
  energy (cs ++ l) h v bra ket = (frozen_energy cs h v * delta bra ket + energy l (frozen_field cs h v) v bra ket)%Qc.
Proof.
  induction cs as [|c cs IH]; intros h v l bra ket ND Hc S; cbn [app].
  - unfold frozen_energy. cbn [sum]. rewrite (energy_ext l (frozen_field [] h v) h); [ring|].
    intros x y _ _. unfold frozen_field. cbn [sum]. ring.
  - cbn [app] in ND. inversion ND as [|? ? N1 N2]; subst. destruct (Hc c (or_introl eq_refl)) as [Tb Tk].
    rewrite energy_cons by auto. rewrite IH; auto.
    + rewrite frozen_energy_cons.
      2:{ intros x y z w Hx Hy Hz Hw. apply S; cbn in *; rewrite in_app_iff; intuition auto. }
      rewrite (energy_ext l _ (frozen_field (c :: cs) h v)); [ring|].
      intros x y _ _. unfold frozen_field. cbn [sum]. ring.
    + intros d Hd. apply Hc. right. auto.
    + intros x y z w Hx Hy Hz Hw. apply S; right; auto.
Qed.
(* orbitals that are empty in both do not count *)
Lemma energy_restrict l l' h v bra ket : NoDup l -> NoDup l' -> (forall i, In i l' -> In i l) ->
  (forall i, tb ket i = true -> In i l') -> (forall i, tb bra i = true -> In i l') ->
  energy l h v bra ket = energy l' h v bra ket.
Proof.
  intros Hl Hl' Hs Hk Hb. unfold energy. f_equal; [|f_equal].
  - rewrite (E1_support l Hl h bra ket (pairs l')).
    + symmetry. apply E1_flat; auto.
    + apply pairs_NoDup; auto.
    + intros [x y]. unfold pairs. rewrite !in_prod_iff. intros [A0 B0]. auto.
    + intros x y C. unfold pairs. apply in_prod_iff. destruct C as (Ty & Hx & E). split; [|apply Hk; auto].
      destruct Hx as [->|Hx]; [apply Hk; auto|]. apply Hb. rewrite E, Hx, Nat.eqb_refl.
      destruct (Nat.eqb_spec x y) as [->|]; [congruence|reflexivity].
  - rewrite (E2_support l Hl v bra ket (quads l')).
    + symmetry. apply E2_flat; auto.
    + apply quads_NoDup; auto.
    + intros (x & y & z & w). intros H. apply (quads_In l' h v) in H. apply (quads_In l h v). destruct H as (A0 & B0 & C0 & D0). repeat split; apply Hs; auto.
    + intros x z w y C. apply (quads_In l' h v). destruct C as (Ty & Tw & N1 & N2 & Hz & Hx & E).
      assert (Iy : In y l') by (apply Hk; auto). assert (Iw : In w l') by (apply Hk; auto).
      repeat split; auto.
      * destruct Hx as [->|[->|Hx]]; auto. apply Hb. rewrite E, Hx, Nat.eqb_refl.
        destruct (Nat.eqb_spec x y) as [->|]; [congruence|]. destruct (Nat.eqb_spec x w) as [->|]; [congruence|].
        destruct (Nat.eqb_spec x z) as [->|]; [congruence|reflexivity].
      * destruct Hz as [->|[->|Hz]]; auto. apply Hb. rewrite E, Hz, Nat.eqb_refl.
        destruct (Nat.eqb_spec z y) as [->|]; [congruence|]. destruct (Nat.eqb_spec z w) as [->|]; [congruence|].
        destruct (Nat.eqb_spec z x) as [->|]; [congruence|reflexivity].
Qed.
