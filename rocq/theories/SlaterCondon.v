(** Generic Slater-Condon rules: the second-quantised matrix element over an
    arbitrary list of spin orbitals, evaluated for each excitation level. *)
From Coq Require Import QArith Qcanon Sorting.Permutation.
From Verif Require Import Base Bits BitsProofs Sums FockSpec SDProofs FockProofs.
Local Open Scope nat_scope.

Definition conn1 (bra ket : N) (x y : nat) : Prop :=
  tb ket y = true /\ (x = y \/ tb ket x = false) /\
  forall k, tb bra k = xorb (xorb (tb ket k) (k =? y)) (k =? x).
Definition conn2 (bra ket : N) (x z w y : nat) : Prop :=
  tb ket y = true /\ tb ket w = true /\ w <> y /\ z <> x /\
  (z = y \/ z = w \/ tb ket z = false) /\ (x = y \/ x = w \/ tb ket x = false) /\
  forall k, tb bra k = xorb (xorb (xorb (xorb (tb ket k) (k =? y)) (k =? w)) (k =? z)) (k =? x).

Lemma braket1_conn bra ket x y : conn1 bra ket x y ->
  braket bra [Cre x; Ann y] ket = sgn (sg1 ket x y).
Proof.
  intros (H1 & H2 & H3). rewrite braket1_val.
  assert (O : ok1 ket x y = true) by (apply ok1_spec; auto). rewrite O. cbn [andb].
  destruct (N.eqb_spec (flipb (flipb ket y) x) bra) as [_|N]; auto.
  exfalso. apply N, tb_ext. intros k. rewrite !tb_flip, H3. reflexivity.
Qed.
Lemma braket1_noconn bra ket x y : ~ conn1 bra ket x y ->
  braket bra [Cre x; Ann y] ket = 0%Qc.
Proof.
  intros H. rewrite braket1_val. destruct (ok1 ket x y) eqn:O; auto. cbn [andb].
  destruct (N.eqb_spec (flipb (flipb ket y) x) bra) as [E|N]; auto.
  exfalso. apply H. apply ok1_spec in O. split; [apply O|]. split; [apply O|].
  intros k. rewrite <- E, !tb_flip. reflexivity.
Qed.
Lemma braket2_conn bra ket x z w y : conn2 bra ket x z w y ->
  braket bra [Cre x; Cre z; Ann w; Ann y] ket = sgn (sg2 ket x z w y).
Proof.
  intros (H1 & H2 & H3 & H4 & H5 & H6 & H7). rewrite braket2_val.
  assert (O : ok2 ket x z w y = true) by (apply ok2_spec; auto 10). rewrite O. cbn [andb].
  destruct (N.eqb_spec (flipb (flipb (flipb (flipb ket y) w) z) x) bra) as [_|N]; auto.
  exfalso. apply N, tb_ext. intros k. rewrite !tb_flip, H7. reflexivity.
Qed.
Lemma braket2_noconn bra ket x z w y : ~ conn2 bra ket x z w y ->
  braket bra [Cre x; Cre z; Ann w; Ann y] ket = 0%Qc.
Proof.
  intros H. rewrite braket2_val. destruct (ok2 ket x z w y) eqn:O; auto. cbn [andb].
  destruct (N.eqb_spec (flipb (flipb (flipb (flipb ket y) w) z) x) bra) as [E|N]; auto.
  exfalso. apply H. apply ok2_spec in O. destruct O as (H1 & H2 & H3 & H4 & H5 & H6).
  repeat (split; [assumption|]). intros k. rewrite <- E, !tb_flip. reflexivity.
Qed.

(** ** which electrons a connected term moves *)
Lemma conn2_hole bra ket x z w y o : conn2 bra ket x z w y ->
  tb ket o = true -> tb bra o = false -> (o = y \/ o = w) /\ o <> x /\ o <> z.
Proof.
  intros (H1 & H2 & H3 & H4 & H5 & H6 & H7) Ho Hb. specialize (H7 o). rewrite Ho, Hb in H7.
  destruct (Nat.eqb_spec o y), (Nat.eqb_spec o w), (Nat.eqb_spec o z), (Nat.eqb_spec o x);
  cbn [xorb] in H7; try discriminate; try lia;
  subst; repeat match goal with H : _ \/ _ |- _ => destruct H end; try lia; congruence.
Qed.
Lemma conn2_part bra ket x z w y v : conn2 bra ket x z w y ->
  tb ket v = false -> tb bra v = true -> v = x \/ v = z.
Proof.
  intros (H1 & H2 & H3 & H4 & H5 & H6 & H7) Ho Hb. specialize (H7 v). rewrite Ho, Hb in H7.
  destruct (Nat.eqb_spec v y); [congruence|]. destruct (Nat.eqb_spec v w); [congruence|].
  destruct (Nat.eqb_spec v z), (Nat.eqb_spec v x); cbn [xorb] in H7; try discriminate; auto.
Qed.
Lemma conn2_common bra ket x z w y r : conn2 bra ket x z w y ->
  tb bra r = true -> r = y \/ r = w -> r = x \/ r = z.
Proof.
  intros (H1 & H2 & H3 & H4 & H5 & H6 & H7) Hb Hr. specialize (H7 r). rewrite Hb in H7.
  destruct (Nat.eqb_spec r x); auto. destruct (Nat.eqb_spec r z); auto. exfalso.
  destruct Hr as [->| ->].
  - rewrite H1, Nat.eqb_refl in H7. destruct (Nat.eqb_spec y w); [lia|]. discriminate.
  - rewrite H2, Nat.eqb_refl in H7. destruct (Nat.eqb_spec w y); [lia|]. discriminate.
Qed.
Lemma conn1_hole bra ket x y o : conn1 bra ket x y ->
  tb ket o = true -> tb bra o = false -> o = y /\ o <> x.
Proof.
  intros (H1 & H2 & H7) Ho Hb. specialize (H7 o). rewrite Ho, Hb in H7.
  destruct (Nat.eqb_spec o y), (Nat.eqb_spec o x); cbn [xorb] in H7; try discriminate; auto.
  subst. destruct H2; [lia|congruence].
Qed.
Lemma conn1_part bra ket x y v : conn1 bra ket x y ->
  tb ket v = false -> tb bra v = true -> v = x.
Proof.
  intros (H1 & H2 & H7) Ho Hb. specialize (H7 v). rewrite Ho, Hb in H7.
  destruct (Nat.eqb_spec v y); [congruence|]. destruct (Nat.eqb_spec v x); auto. discriminate.
Qed.
Lemma conn1_diag ket x y : conn1 ket ket x y -> x = y.
Proof.
  intros (H1 & H2 & H7). specialize (H7 y). rewrite H1, Nat.eqb_refl in H7.
  destruct (Nat.eqb_spec y x); auto. discriminate.
Qed.

(** ** signs *)
Lemma sg1_diag s y : sg1 s y y = false.
Proof. unfold sg1. rewrite Nat.ltb_irrefl, xorb_false_r, xorb_nilpotent. reflexivity. Qed.

Ltac ltbs := repeat match goal with |- context [?a <? ?b] => destruct (Nat.ltb_spec a b) end; try lia.
Ltac pbs s := repeat match goal with |- context [parity_below s ?a] => destruct (parity_below s a) end;
  try reflexivity.

Lemma sg2_direct s y w : y <> w -> sg2 s y w w y = false.
Proof. intros H. unfold sg2. rewrite !Nat.ltb_irrefl. ltbs; pbs s. Qed.
Lemma sg2_exch s x z w y : x <> z -> sg2 s z x w y = negb (sg2 s x z w y).
Proof. intros H. unfold sg2. ltbs; pbs s. Qed.
Lemma sg2_exch' s x z w y : w <> y -> sg2 s x z y w = negb (sg2 s x z w y).
Proof. intros H. unfold sg2. ltbs; pbs s. Qed.
Lemma sg2_single s v o r : r <> o -> r <> v -> tb s r = true -> v <> o ->
  sg2 s v r r o = sg1 s v o.
Proof.
  intros H1 H2 Hr H3. unfold sg2, sg1. rewrite !Nat.ltb_irrefl. ltbs; pbs s.
Qed.

Lemma sgn_negb b : sgn (negb b) = (- sgn b)%Qc.
Proof. destruct b; cbn [negb sgn]; ring. Qed.

Ltac spl H := lazymatch type of H with
  | _ \/ _ => destruct H as [H|H]; spl H
  | False => destruct H
  | _ => idtac
  end.
Ltac disj X := lazymatch type of X with
  | _ \/ _ => let Y := fresh in destruct X as [Y|Y]; disj Y
  | False => destruct X
  | _ = _ => inversion X; lia
  end.
Ltac nodupx := repeat (apply NoDup_cons; [let X := fresh in intros X; cbn [In] in X; disj X|]);
  apply NoDup_nil.

(** ** sums over spin orbitals *)
Section SC.
  Variables (l : list nat) (Hl : NoDup l).
  Variables (h : nat -> nat -> Qc) (v : nat -> nat -> nat -> nat -> Qc).
  Variables (bra ket : N).
  Hypothesis Hk : forall i, tb ket i = true -> In i l.
  Hypothesis Hb : forall i, tb bra i = true -> In i l.

  Definition E1 : Qc := sum l (fun x => sum l (fun y =>
    h x y * braket bra [Cre x; Ann y] ket)%Qc).
  Definition E2 : Qc := sum l (fun x => sum l (fun y => sum l (fun z => sum l (fun w =>
    v x y z w * braket bra [Cre x; Cre z; Ann w; Ann y] ket)%Qc))).

  Definition pairs := list_prod l l.
  Definition quads := list_prod l (list_prod l (list_prod l l)).
  Definition t1 (a : nat * nat) : Qc := (h (fst a) (snd a) * braket bra [Cre (fst a); Ann (snd a)] ket)%Qc.
  Definition t2 (a : nat * (nat * (nat * nat))) : Qc :=
    let '(x, (y, (z, w))) := a in (v x y z w * braket bra [Cre x; Cre z; Ann w; Ann y] ket)%Qc.

  Lemma E1_flat : E1 = sum pairs t1.
  Proof. unfold E1, pairs. rewrite sum_prod. reflexivity. Qed.
  Lemma E2_flat : E2 = sum quads t2.
  Proof.
    unfold E2, quads. rewrite sum_prod. apply sum_ext. intros x _.
    rewrite sum_prod. apply sum_ext. intros y _. rewrite sum_prod. reflexivity.
  Qed.
  Lemma pairs_NoDup : NoDup pairs. Proof. apply NoDup_list_prod; auto. Qed.
  Lemma quads_NoDup : NoDup quads. Proof. repeat apply NoDup_list_prod; auto. Qed.
  Lemma quads_In x y z w : In (x, (y, (z, w))) quads <-> In x l /\ In y l /\ In z l /\ In w l.
  Proof. unfold quads. rewrite !in_prod_iff. tauto. Qed.

  Lemma E1_support m : NoDup m -> (forall a, In a m -> In a pairs) ->
    (forall x y, conn1 bra ket x y -> In (x, y) m) -> E1 = sum m t1.
  Proof.
    intros Hm Hi Hc. rewrite E1_flat. apply sum_support; auto using pairs_NoDup.
    intros [x y] _ N. unfold t1. cbn [fst snd]. rewrite braket1_noconn; [ring|].
    intros C. apply N, Hc, C.
  Qed.
  Lemma E2_support m : NoDup m -> (forall a, In a m -> In a quads) ->
    (forall x z w y, conn2 bra ket x z w y -> In (x, (y, (z, w))) m) -> E2 = sum m t2.
  Proof.
    intros Hm Hi Hc. rewrite E2_flat. apply sum_support; auto using quads_NoDup.
    intros [x [y [z w]]] _ N. unfold t2. rewrite braket2_noconn; [ring|].
    intros C. apply N, Hc, C.
  Qed.

  Definition occ := filter (tb ket) l.
  Lemma occ_In i : In i occ <-> tb ket i = true.
  Proof. unfold occ. rewrite filter_In. split; [tauto|auto]. Qed.
  Lemma occ_NoDup : NoDup occ. Proof. apply NoDup_filter, Hl. Qed.

  (** *** no more than two electrons may move *)
  Lemma E1_zero o1 o2 : o1 <> o2 -> tb ket o1 = true -> tb ket o2 = true ->
    tb bra o1 = false -> tb bra o2 = false -> E1 = 0%Qc.
  Proof.
    intros Hd A1 A2 B1 B2. rewrite (E1_support []); [reflexivity|constructor|intros ? []|].
    intros x y C. pose proof (conn1_hole _ _ _ _ _ C A1 B1). pose proof (conn1_hole _ _ _ _ _ C A2 B2). lia.
  Qed.
  Lemma E2_zero o1 o2 o3 : o1 <> o2 -> o1 <> o3 -> o2 <> o3 ->
    tb ket o1 = true -> tb ket o2 = true -> tb ket o3 = true ->
    tb bra o1 = false -> tb bra o2 = false -> tb bra o3 = false -> E2 = 0%Qc.
  Proof.
    intros D1 D2 D3 A1 A2 A3 B1 B2 B3. rewrite (E2_support []); [reflexivity|constructor|intros ? []|].
    intros x z w y C. pose proof (conn2_hole _ _ _ _ _ _ _ C A1 B1).
    pose proof (conn2_hole _ _ _ _ _ _ _ C A2 B2). pose proof (conn2_hole _ _ _ _ _ _ _ C A3 B3). lia.
  Qed.

  (** *** diagonal *)
  Lemma E1_diag : bra = ket -> E1 = sum occ (fun y => h y y).
  Proof.
    intros E. rewrite (E1_support (map (fun y => (y, y)) occ)).
    - rewrite sum_map. apply sum_ext. intros y Hy. apply occ_In in Hy. unfold t1. cbn [fst snd].
      rewrite braket1_conn.
      + rewrite sg1_diag. cbn [sgn]. ring.
      + split; [auto|]. split; [auto|]. intros k. rewrite E. destruct (tb ket k), (k =? y); reflexivity.
    - apply NoDup_map_inj; [|apply occ_NoDup]. intros a b _ _ H. congruence.
    - intros a Ha. apply in_map_iff in Ha. destruct Ha as (y & <- & Hy). apply occ_In in Hy.
      apply in_prod; auto.
    - intros x y C. rewrite E in C. assert (x = y) by (eapply conn1_diag; eauto). subst x.
      apply (in_map (fun y => (y, y))). apply occ_In, C.
  Qed.

  Definition diag_m := flat_map (fun y => flat_map (fun w =>
     if y =? w then [] else [(y, (y, (w, w))); (w, (y, (y, w)))]) occ) occ.

  Lemma diag_m_In x y z w : In (x, (y, (z, w))) diag_m <->
    In y occ /\ In w occ /\ y <> w /\ ((x = y /\ z = w) \/ (x = w /\ z = y)).
  Proof.
    unfold diag_m. rewrite in_flat_map. split.
    - intros (y' & Hy & H). apply in_flat_map in H. destruct H as (w' & Hw & H).
      destruct (Nat.eqb_spec y' w'); [destruct H|].
      destruct H as [H|[H|[]]]; inversion H; subst; auto 10.
    - intros (Hy & Hw & Hd & H). exists y. split; auto. apply in_flat_map. exists w. split; auto.
      destruct (Nat.eqb_spec y w); [lia|].
      destruct H as [[-> ->]|[-> ->]]; cbn [In]; auto.
  Qed.

  Lemma diag_m_NoDup : NoDup diag_m.
  Proof.
    unfold diag_m. apply NoDup_flat_map; [apply occ_NoDup| |].
    - intros y Hy. apply NoDup_flat_map; [apply occ_NoDup| |].
      + intros w Hw. destruct (Nat.eqb_spec y w) as [e|e]; [constructor|].
        constructor; [|constructor; [intros []|constructor]].
        intros [H|[]]. inversion H. lia.
      + intros w w' [x [y1 [z w1]]] Hw Hw' H H'.
        destruct (Nat.eqb_spec y w); [destruct H|]. destruct (Nat.eqb_spec y w'); [destruct H'|].
        destruct H as [H|[H|[]]]; destruct H' as [H'|[H'|[]]]; inversion H; inversion H'; subst; lia.
    - intros y y' [x [y1 [z w1]]] Hy Hy' H H'.
      apply in_flat_map in H. apply in_flat_map in H'.
      destruct H as (w & Hw & H), H' as (w' & Hw' & H').
      destruct (Nat.eqb_spec y w); [destruct H|]. destruct (Nat.eqb_spec y' w'); [destruct H'|].
      destruct H as [H|[H|[]]]; destruct H' as [H'|[H'|[]]]; inversion H; inversion H'; subst; lia.
  Qed.

  Lemma E2_diag : bra = ket ->
    E2 = sum occ (fun y => sum occ (fun w => v y y w w - v w y y w)%Qc).
  Proof.
    intros E. rewrite (E2_support diag_m).
    - unfold diag_m. rewrite sum_flat_map. apply sum_ext. intros y Hy.
      rewrite sum_flat_map. apply sum_ext. intros w Hw.
      apply occ_In in Hy. apply occ_In in Hw.
      destruct (Nat.eqb_spec y w).
      + subst w. cbn [sum]. ring.
      + cbn [sum]; unfold t2. rewrite !braket2_conn.
        * rewrite sg2_direct by auto. rewrite (sg2_exch ket y w w y) by auto.
          rewrite sg2_direct by auto. cbn [sgn negb]. ring.
        * repeat (split; [auto; lia|]). intros k. rewrite E.
          destruct (tb ket k), (k =? y), (k =? w); reflexivity.
        * repeat (split; [auto; lia|]). intros k. rewrite E.
          destruct (tb ket k), (k =? y), (k =? w); reflexivity.
    - apply diag_m_NoDup.
    - intros [x [y [z w]]] H. apply diag_m_In in H. destruct H as (Hy & Hw & Hd & H).
      apply occ_In in Hy. apply occ_In in Hw. apply quads_In.
      destruct H as [[-> ->]|[-> ->]]; auto.
    - intros x z w y C. apply diag_m_In.
      pose proof C as (H1 & H2 & H3 & H4 & _).
      rewrite !occ_In. split; [auto|]. split; [auto|]. split; [lia|].
      assert (tb bra y = true /\ tb bra w = true) as [By Bw] by (rewrite E; auto).
      pose proof (conn2_common _ _ _ _ _ _ _ C By (or_introl eq_refl)).
      pose proof (conn2_common _ _ _ _ _ _ _ C Bw (or_intror eq_refl)). lia.
  Qed.

  (** *** one electron moved: o -> p *)
  Section SINGLE.
    Variables (o p : nat).
    Hypothesis (Ho : tb ket o = true) (Hp : tb ket p = false).
    Hypothesis Hbra : forall k, tb bra k = xorb (xorb (tb ket k) (k =? o)) (k =? p).

    Lemma sgl_neq : o <> p. Proof. congruence. Qed.
    Lemma bra_o : tb bra o = false.
    Proof. rewrite Hbra, Ho, Nat.eqb_refl. destruct (Nat.eqb_spec o p); [pose proof sgl_neq; lia|]. reflexivity. Qed.
    Lemma bra_p : tb bra p = true.
    Proof. rewrite Hbra, Hp, Nat.eqb_refl. destruct (Nat.eqb_spec p o); [pose proof sgl_neq; lia|]. reflexivity. Qed.
    Lemma bra_other r : r <> o -> r <> p -> tb bra r = tb ket r.
    Proof.
      intros A B. rewrite Hbra. destruct (Nat.eqb_spec r o); [lia|].
      destruct (Nat.eqb_spec r p); [lia|]. rewrite !xorb_false_r. reflexivity.
    Qed.

    Lemma E1_single : E1 = (sgn (sg1 ket p o) * h p o)%Qc.
    Proof.
      rewrite (E1_support [(p, o)]).
      - cbn [sum]; unfold t1; cbn [fst snd]. rewrite braket1_conn; [ring|]. split; [auto|]. split; [auto|]. exact Hbra.
      - repeat constructor. intros [].
      - intros a [<-|[]]. apply in_prod; auto. apply Hb, bra_p.
      - intros x y C. pose proof (conn1_hole _ _ _ _ _ C Ho bra_o) as [H _].
        pose proof (conn1_part _ _ _ _ _ C Hp bra_p). subst. left; reflexivity.
    Qed.

    Definition rest := filter (fun r => negb (r =? o)) occ.
    Lemma rest_In r : In r rest <-> tb ket r = true /\ r <> o.
    Proof.
      unfold rest. rewrite filter_In, occ_In, negb_true_iff, Nat.eqb_neq. tauto.
    Qed.
    Definition single_m := flat_map (fun r =>
      [(p, (o, (r, r))); (r, (r, (p, o))); (p, (r, (r, o))); (r, (o, (p, r)))]) rest.

    Lemma E2_single : E2 = (sgn (sg1 ket p o) *
      sum rest (fun r => v p o r r + v r r p o - v p r r o - v r o p r))%Qc.
    Proof.
      pose proof sgl_neq as Nop.
      rewrite (E2_support single_m).
      - unfold single_m. rewrite sum_flat_map, <- sum_scale. apply sum_ext. intros r Hr.
        apply rest_In in Hr. destruct Hr as [Kr Nr]. assert (r <> p) by congruence.
        assert (S1 : sg2 ket p r r o = sg1 ket p o) by (apply sg2_single; auto).
        cbn [sum]; unfold t2. rewrite !braket2_conn.
        + rewrite S1. rewrite (sg2_exch' ket p r r o), (sg2_exch ket p r r o) by auto.
          rewrite (sg2_exch' ket r p r o), (sg2_exch ket p r r o) by auto.
          rewrite negb_involutive, S1, sgn_negb. ring.
        + repeat (split; [auto; lia|]). intros k. rewrite Hbra.
          destruct (tb ket k), (k =? o), (k =? p), (k =? r); reflexivity.
        + repeat (split; [auto; lia|]). intros k. rewrite Hbra.
          destruct (tb ket k), (k =? o), (k =? p), (k =? r); reflexivity.
        + repeat (split; [auto; lia|]). intros k. rewrite Hbra.
          destruct (tb ket k), (k =? o), (k =? p), (k =? r); reflexivity.
        + repeat (split; [auto; lia|]). intros k. rewrite Hbra.
          destruct (tb ket k), (k =? o), (k =? p), (k =? r); reflexivity.
      - unfold single_m. apply NoDup_flat_map.
        + apply NoDup_filter, occ_NoDup.
        + intros r Hr. apply rest_In in Hr. destruct Hr as [Kr Nr]. assert (r <> p) by congruence.
          nodupx.
        + intros r r' [x [y [z w]]] Hr Hr' H H'. apply rest_In in Hr. apply rest_In in Hr'.
          assert (r <> p) by (destruct Hr; congruence). assert (r' <> p) by (destruct Hr'; congruence).
          cbn [In] in H, H'.
          spl H; spl H';
          inversion H; inversion H'; subst; lia.
      - intros [x [y [z w]]] H. unfold single_m in H. apply in_flat_map in H.
        destruct H as (r & Hr & H). apply rest_In in Hr. destruct Hr as [Kr Nr].
        pose proof (Hb p bra_p). pose proof (Hk o Ho). pose proof (Hk r Kr).
        apply quads_In. cbn [In] in H.
        spl H; inversion H; subst; auto.
      - intros x z w y C. pose proof C as (H1 & H2 & H3 & H4 & _).
        pose proof (conn2_hole _ _ _ _ _ _ _ C Ho bra_o) as (Hh & Hx & Hz).
        pose proof (conn2_part _ _ _ _ _ _ _ C Hp bra_p) as Hpp.
        assert (exists r, tb ket r = true /\ r <> o /\ ((y = o /\ w = r) \/ (y = r /\ w = o))) as (r & Kr & Nr & Hyw).
        { destruct Hh as [<-|<-]; [exists w|exists y]; auto. }
        assert (r <> p) by congruence.
        assert (Br : tb bra r = true) by (rewrite bra_other; auto).
        assert (Hrx : r = x \/ r = z).
        { apply (conn2_common _ _ _ _ _ _ _ C Br). lia. }
        unfold single_m. apply in_flat_map. exists r. split; [apply rest_In; auto|].
        assert ((x = p /\ z = r) \/ (x = r /\ z = p)) as Hxz by lia.
        destruct Hyw as [[-> ->]|[-> ->]], Hxz as [[-> ->]|[-> ->]]; cbn [In]; auto.
    Qed.
  End SINGLE.

  (** *** two electrons moved: o1, o2 -> p1, p2 *)
  Section DOUBLE.
    Variables (o1 p1 o2 p2 : nat).
    Hypothesis (Ho1 : tb ket o1 = true) (Hp1 : tb ket p1 = false).
    Hypothesis (Ho2 : tb ket o2 = true) (Hp2 : tb ket p2 = false).
    Hypothesis (No : o1 <> o2) (Np : p1 <> p2).
    Hypothesis Hbra : forall k, tb bra k =
      xorb (xorb (xorb (xorb (tb ket k) (k =? o1)) (k =? o2)) (k =? p2)) (k =? p1).

    Lemma dbl_neq : o1 <> p1 /\ o1 <> p2 /\ o2 <> p1 /\ o2 <> p2.
    Proof. repeat split; congruence. Qed.
    Lemma dbl_bra : tb bra o1 = false /\ tb bra o2 = false /\ tb bra p1 = true /\ tb bra p2 = true.
    Proof.
      pose proof dbl_neq as (A & B & C & D). rewrite !Hbra, Ho1, Ho2, Hp1, Hp2, !Nat.eqb_refl.
      destruct (Nat.eqb_spec o1 o2), (Nat.eqb_spec o1 p2), (Nat.eqb_spec o1 p1); try lia.
      destruct (Nat.eqb_spec o2 o1), (Nat.eqb_spec o2 p2), (Nat.eqb_spec o2 p1); try lia.
      destruct (Nat.eqb_spec p1 o1), (Nat.eqb_spec p1 o2), (Nat.eqb_spec p1 p2); try lia.
      destruct (Nat.eqb_spec p2 o1), (Nat.eqb_spec p2 o2), (Nat.eqb_spec p2 p1); try lia. auto.
    Qed.

    Lemma E1_double : E1 = 0%Qc.
    Proof. destruct dbl_bra as (A & B & _). apply (E1_zero o1 o2); auto. Qed.

    Definition double_m : list (nat * (nat * (nat * nat))) :=
      [(p1, (o1, (p2, o2))); (p2, (o2, (p1, o1))); (p1, (o2, (p2, o1))); (p2, (o1, (p1, o2)))].

    Lemma double_m_NoDup : NoDup double_m.
    Proof. unfold double_m. nodupx. Qed.
    Lemma double_m_quads a : In a double_m -> In a quads.
    Proof.
      destruct dbl_bra as (B1 & B2 & B3 & B4).
      destruct a as [x [y [z w]]]. unfold double_m. intros H. cbn [In] in H. apply quads_In.
      apply Hb in B3. apply Hb in B4. apply Hk in Ho1. apply Hk in Ho2.
      spl H; injection H as <- <- <- <-; auto.
    Qed.
    Lemma double_m_conn x z w y : conn2 bra ket x z w y -> In (x, (y, (z, w))) double_m.
    Proof.
      destruct dbl_bra as (B1 & B2 & B3 & B4).
      intros Cn. pose proof Cn as (H1 & H2 & H3 & H4 & _).
      pose proof (conn2_hole _ _ _ _ _ _ _ Cn Ho1 B1) as (Hh & _).
      pose proof (conn2_hole _ _ _ _ _ _ _ Cn Ho2 B2) as (Hh' & _).
      pose proof (conn2_part _ _ _ _ _ _ _ Cn Hp1 B3) as Hpp.
      pose proof (conn2_part _ _ _ _ _ _ _ Cn Hp2 B4) as Hpp'.
      assert ((y = o1 /\ w = o2) \/ (y = o2 /\ w = o1)) as Hyw by lia.
      assert ((x = p1 /\ z = p2) \/ (x = p2 /\ z = p1)) as Hxz by lia.
      unfold double_m.
      destruct Hyw as [[-> ->]|[-> ->]], Hxz as [[-> ->]|[-> ->]]; cbn [In]; auto.
    Qed.
    Lemma conn2_d1 : conn2 bra ket p1 p2 o2 o1.
    Proof.
      repeat (split; [auto; lia|]). exact Hbra.
    Qed.
    Lemma conn2_d2 : conn2 bra ket p2 p1 o2 o1.
    Proof.
      repeat (split; [auto; lia|]). intros k. rewrite Hbra.
      destruct (tb ket k), (k =? o1), (k =? p1), (k =? o2), (k =? p2); reflexivity.
    Qed.
    Lemma conn2_d3 : conn2 bra ket p1 p2 o1 o2.
    Proof.
      repeat (split; [auto; lia|]). intros k. rewrite Hbra.
      destruct (tb ket k), (k =? o1), (k =? p1), (k =? o2), (k =? p2); reflexivity.
    Qed.
    Lemma conn2_d4 : conn2 bra ket p2 p1 o1 o2.
    Proof.
      repeat (split; [auto; lia|]). intros k. rewrite Hbra.
      destruct (tb ket k), (k =? o1), (k =? p1), (k =? o2), (k =? p2); reflexivity.
    Qed.

    Lemma E2_double : E2 = (sgn (sg2 ket p1 p2 o2 o1) *
      (v p1 o1 p2 o2 + v p2 o2 p1 o1 - v p1 o2 p2 o1 - v p2 o1 p1 o2))%Qc.
    Proof.
      rewrite (E2_support double_m double_m_NoDup double_m_quads double_m_conn).
      unfold double_m. cbn [sum]. unfold t2.
      rewrite (braket2_conn _ _ _ _ _ _ conn2_d1), (braket2_conn _ _ _ _ _ _ conn2_d2),
        (braket2_conn _ _ _ _ _ _ conn2_d3), (braket2_conn _ _ _ _ _ _ conn2_d4).
      rewrite (sg2_exch' ket p2 p1 o2 o1) by auto.
      rewrite (sg2_exch' ket p1 p2 o2 o1), (sg2_exch ket p1 p2 o2 o1) by auto.
      rewrite negb_involutive, sgn_negb. ring.
    Qed.
  End DOUBLE.
End SC.
