(** Concrete arrays used beside the theorems of Props_Dense. *)
From Coq Require Import QArith Qcanon Qcabs Bool Lia.
From Verif Require Import Base Sums Ham HamProofs Asci Mem MemProofs SparseProofs1 RdmIOProofs PropsHamGlue Dense DenseSpec DenseProofs FockMatProofs RotProofs LinRespProofs HessProofs ExpandProofs SymProofs Mp2Proofs DenseGlue.
Local Open Scope nat_scope.

(** arrays with given elements *)
Definition tab2 (LD m : nat) (f : nat -> nat -> Qc) : list Qc := map (fun x => f (x mod LD) (x / LD)) (seq 0 (LD * m)).
Definition tab4 (LD : nat) (f : nat -> nat -> nat -> nat -> Qc) : list Qc :=
  map (fun x => f (x mod LD) (x / LD mod LD) (x / (LD * LD) mod LD) (x / (LD * LD * LD))) (seq 0 (LD * LD * (LD * LD))).
Lemma tab2_len LD m f : length (tab2 LD m f) = LD * m. Proof. unfold tab2. rewrite map_length, seq_length. reflexivity. Qed.
Lemma tab4_len LD f : length (tab4 LD f) = LD * LD * (LD * LD). Proof. unfold tab4. rewrite map_length, seq_length. reflexivity. Qed.
Lemma fits2_lenge A LD n m : n <= LD -> LD * m <= length A -> fits2 A LD n m.
Proof. intros H H'. split; auto. intros i j Hi Hj. nia. Qed.
Lemma fits4_lenge A LD n : n <= LD -> LD * LD * (LD * LD) <= length A -> fits4 A LD n.
Proof.
  intros H H'. split; auto. intros i j k l Hi Hj Hk Hl. eapply Nat.lt_le_trans; [|exact H'].
  assert (i + j * LD < LD * LD) by nia. replace (k * LD * LD) with (k * (LD * LD)) by lia. replace (l * LD * LD * LD) with (l * (LD * (LD * LD))) by lia.
  set (L2 := LD * LD) in *. assert (i + j * LD + k * L2 < LD * L2) by nia. assert (l + 1 <= LD) by lia. assert ((l + 1) * (LD * L2) <= LD * (LD * L2)) by nia. unfold L2 in *. nia.
Qed.
Lemma tab2_at LD m f i j : i < LD -> j < m -> at2 (tab2 LD m f) LD i j = f i j.
Proof.
  intros Hi Hj. unfold at2, tab2. rewrite (nth_map_seq (fun x => f (x mod LD) (x / LD))) by nia. f_equal.
  - rewrite Nat.mod_add by lia. apply Nat.mod_small; auto.
  - rewrite Nat.div_add by lia. rewrite Nat.div_small by auto. lia.
Qed.
(** any antisymmetric matrix has such a family: I - t K + t^2/2 K^2 *)
Definition quadratic_family (n : nat) (K : nat -> nat -> Qc) (t : Qc) : list Qc :=
  tab2 n n (fun i p => (if i =? p then 1 else 0) + t * - K i p + t * t * (half * product n K K i p))%Qc.
Lemma quadratic_rotation n K : (forall t, fits2 (quadratic_family n K t) n n n) /\ rotation_family n (fun t => at2 (quadratic_family n K t) n) K.
Proof.
  split.
  - intros t. apply fits2_len. apply tab2_len.
  - intros i p Hi Hp. exists 0%Qc. intros t _. unfold quadratic_family. rewrite tab2_at by auto.
    rewrite Qcmult_0_l. set (d := if i =? p then 1%Qc else 0%Qc). match goal with |- (?f ?a <= _)%Qc => replace a with 0%Qc by (unfold d; ring) end. vm_compute. discriminate.
Qed.
Definition allb (n : nat) (f : nat -> bool) : bool := forallb f (seq 0 n).
Lemma allb_ok n f : allb n f = true -> forall i, i < n -> f i = true.
Proof. unfold allb. rewrite forallb_forall. intros H i Hi. apply H. apply in_seq. lia. Qed.
Lemma qcb x y : Qc_eq_bool x y = true -> x = y. Proof. unfold Qc_eq_bool. destruct (Qc_eq_dec x y); congruence. Qed.
Lemma qcb_false x y : Qc_eq_bool x y = false -> x <> y. Proof. unfold Qc_eq_bool. destruct (Qc_eq_dec x y); congruence. Qed.
Lemma symmetric2_dec n T : allb n (fun p => allb n (fun q => Qc_eq_bool (T p q) (T q p))) = true -> symmetric2 n T.
Proof. intros H p q Hp Hq. apply qcb. apply (allb_ok n (fun q => Qc_eq_bool (T p q) (T q p))); auto. apply (allb_ok n (fun p => allb n (fun q => Qc_eq_bool (T p q) (T q p)))); auto. Qed.
Lemma eightfold_dec n V : allb n (fun p => allb n (fun q => allb n (fun r => allb n (fun s => Qc_eq_bool (V p q r s) (V r s p q) && Qc_eq_bool (V p q r s) (V q p r s))))) = true -> eightfold n V.
Proof.
  intros H p q r s Hp Hq Hr Hs. pose proof (allb_ok n _ H p Hp) as H1. cbv beta in H1. pose proof (allb_ok n _ H1 q Hq) as H2. cbv beta in H2.
  pose proof (allb_ok n _ H2 r Hr) as H3. cbv beta in H3. pose proof (allb_ok n _ H3 s Hs) as H4. cbv beta in H4. apply andb_prop in H4. split; apply qcb; tauto.
Qed.
Lemma fourfold_dec n V : allb n (fun p => allb n (fun q => allb n (fun r => allb n (fun s => Qc_eq_bool (V p q r s) (V r s p q) && Qc_eq_bool (V p q r s) (V q p s r))))) = true -> fourfold n V.
Proof.
  intros H p q r s Hp Hq Hr Hs. pose proof (allb_ok n _ H p Hp) as H1. cbv beta in H1. pose proof (allb_ok n _ H1 q Hq) as H2. cbv beta in H2.
  pose proof (allb_ok n _ H2 r Hr) as H3. cbv beta in H3. pose proof (allb_ok n _ H3 s Hs) as H4. cbv beta in H4. apply andb_prop in H4. split; apply qcb; tauto.
Qed.

Notation "# x" := (inject x) (at level 1).
(** one inactive, one active and one virtual orbital *)
Definition ex_S (p q : nat) : Qc := inject (p * q + p + q + 1).
Definition ex_T : list Qc := map inject [1; 2; 3; 2; 5; 7; 3; 7; 11].
Definition ex_V : list Qc := tab4 3 (fun p q r s => half * ex_S p q * ex_S r s)%Qc.
Definition ex_D : list Qc := [1%Qc].
Definition ex_D2 : list Qc := [half].
Lemma ex_ok : fits2 ex_T 3 3 3 /\ fits4 ex_V 3 3 /\ fits2 ex_D 1 1 1 /\ fits4 ex_D2 1 1 /\
  symmetric2 3 (at2 ex_T 3) /\ eightfold 3 (at4 ex_V 3) /\ symmetric2 1 (at2 ex_D 1) /\ fourfold 1 (at4 ex_D2 1).
Proof.
  split; [apply fits2_lenge; cbn; lia|]. split; [apply fits4_lenge; [lia|]; unfold ex_V; rewrite tab4_len; lia|].
  split; [apply fits2_lenge; cbn; lia|]. split; [apply fits4_lenge; cbn; lia|].
  split; [apply symmetric2_dec; vm_compute; reflexivity|]. split; [apply eightfold_dec; vm_compute; reflexivity|].
  split; [apply symmetric2_dec; vm_compute; reflexivity|apply fourfold_dec; vm_compute; reflexivity].
Qed.
Definition grad_and_products (k l : list Qc) : res (list Qc * list Qc * list Qc) :=
  do F <- generalized_fock_matrix_comp_mat2 3 1 1 ex_T 3 ex_V 3 ex_D 1 ex_D2 1 (repeat 0%Qc 9) 3;
  do g <- pack_gradient 1 1 1 F 3 (repeat 0%Qc 3);
  do a <- orb_orb_hessian_contract 3 1 1 1 ex_T 3 ex_V 3 ex_D 1 ex_D2 1 g k (repeat 0%Qc 3);
  do b <- orb_orb_hessian_contract 3 1 1 1 ex_T 3 ex_V 3 ex_D 1 ex_D2 1 g l (repeat 0%Qc 3);
  Ok (g, a, b).
Lemma hessian_not_symmetric : exists g a b, grad_and_products [1; 0; 0]%Qc [0; 1; 0]%Qc = Ok (g, a, b) /\ dot 3 [0; 1; 0]%Qc a <> dot 3 [1; 0; 0]%Qc b.
Proof.
  destruct (okb_ok (grad_and_products [1; 0; 0]%Qc [0; 1; 0]%Qc) (fun x => let '(g, a, b) := x in negb (Qc_eq_bool (dot 3 [0; 1; 0]%Qc a) (dot 3 [1; 0; 0]%Qc b)))) as ([[g a] b] & E & H).
  - vm_compute. reflexivity.
  - exists g, a, b. split; auto. apply negb_true_iff in H. apply qcb_false, H.
Qed.
Lemma c55_asym_ref : exists no ni na nv T V D D2 l k F g hl hk, no = ni + na + nv /\
  symmetric2 no (at2 T no) /\ eightfold no (at4 V no) /\ symmetric2 na (at2 D na) /\ fourfold na (at4 D2 na) /\
  (let F := generalized_fock ni na (at2 T no) (at4 V no) (at2 D na) (at4 D2 na) in
   forall x y, x < na -> y < na -> F (x + ni) (y + ni) = F (y + ni) (x + ni)) /\
  generalized_fock_matrix_comp_mat2 no ni na T no V no D na D2 na (repeat 0%Qc (no * no)) no = Ok F /\
  pack_gradient ni na nv F no (repeat 0%Qc (rot_size ni na nv)) = Ok g /\
  orb_orb_hessian_contract no ni na nv T no V no D na D2 na g l (repeat 0%Qc (rot_size ni na nv)) = Ok hl /\
  orb_orb_hessian_contract no ni na nv T no V no D na D2 na g k (repeat 0%Qc (rot_size ni na nv)) = Ok hk /\
  dot (rot_size ni na nv) l hk <> dot (rot_size ni na nv) k hl.
Proof.
  destruct ex_ok as (_ & _ & _ & _ & H1 & H2 & H3 & H4).
  destruct hessian_not_symmetric as (g & a & b & E & N). unfold grad_and_products in E.
  destruct (generalized_fock_matrix_comp_mat2 3 1 1 ex_T 3 ex_V 3 ex_D 1 ex_D2 1 (repeat 0%Qc 9) 3) as [F|] eqn:E1; cbn [bind] in E; [|discriminate].
  destruct (pack_gradient 1 1 1 F 3 (repeat 0%Qc 3)) as [g'|] eqn:E2; cbn [bind] in E; [|discriminate].
  destruct (orb_orb_hessian_contract 3 1 1 1 ex_T 3 ex_V 3 ex_D 1 ex_D2 1 g' [1; 0; 0]%Qc (repeat 0%Qc 3)) as [a'|] eqn:E3; cbn [bind] in E; [|discriminate].
  destruct (orb_orb_hessian_contract 3 1 1 1 ex_T 3 ex_V 3 ex_D 1 ex_D2 1 g' [0; 1; 0]%Qc (repeat 0%Qc 3)) as [b'|] eqn:E4; cbn [bind] in E; [|discriminate].
  injection E as -> -> ->.
  exists 3, 1, 1, 1, ex_T, ex_V, ex_D, ex_D2, [0; 1; 0]%Qc, [1; 0; 0]%Qc, F, g, b, a.
  split; [reflexivity|]. do 4 (split; [assumption|]). split.
  { intros F' x y Hx Hy. replace x with 0 by lia. replace y with 0 by lia. reflexivity. }
  do 4 (split; [assumption|]). exact N.
Qed.

(** ** leading dimensions *)
Definition pick (k n : nat) : list Qc := map (fun x => if x =? k then 1%Qc else 0%Qc) (seq 0 n).
Definition one_of (r : res (list Qc)) (f : list Qc -> bool) : bool := okb r f.
Lemma four_index_strided_ref : exists no nn X LDX C LDC Y Y', fits4 X LDX no /\ fits2 C LDC no nn /\ fits4 Y nn nn /\
  four_index_transform no nn X LDX C LDC Y nn = Ok Y' /\ ~ filled4 Y Y' nn nn (congruence4 no (at2 C LDC) (at4 X LDX)).
Proof.
  destruct (okb_ok (four_index_transform 2 1 (pick 6 81) 3 [1; 1]%Qc 2 [0%Qc] 1) (fun Y => negb (Qc_eq_bool (at4 Y 1 0 0 0 0) (congruence4 2 (at2 [1; 1]%Qc 2) (at4 (pick 6 81) 3) 0 0 0 0)))) as (Y & E & H).
  - vm_compute. reflexivity.
  - exists 2, 1, (pick 6 81), 3, [1; 1]%Qc, 2, [0%Qc], Y.
    split; [apply fits4_lenge; [lia|cbn; lia]|]. split; [apply fits2_lenge; cbn; lia|]. split; [apply fits4_lenge; cbn; lia|]. split; [exact E|].
    intros (_ & A & _). apply negb_true_iff in H. apply qcb_false in H. apply H. apply A; lia.
Qed.
Lemma four_index_ldy_ref : exists no nn X LDX C LDC Y LDY Y', LDX = no /\ fits4 X LDX no /\ fits2 C LDC no nn /\ fits4 Y LDY nn /\
  four_index_transform no nn X LDX C LDC Y LDY = Ok Y' /\ ~ filled4 Y Y' LDY nn (congruence4 no (at2 C LDC) (at4 X LDX)).
Proof.
  destruct (okb_ok (four_index_transform 2 2 (pick 2 16) 2 [1; 0; 0; 1]%Qc 2 (repeat 0%Qc 81) 3) (fun Y => negb (Qc_eq_bool (at4 Y 3 0 1 0 0) (congruence4 2 (at2 [1; 0; 0; 1]%Qc 2) (at4 (pick 2 16) 2) 0 1 0 0)))) as (Y & E & H).
  - vm_compute. reflexivity.
  - exists 2, 2, (pick 2 16), 2, [1; 0; 0; 1]%Qc, 2, (repeat 0%Qc 81), 3, Y. split; auto.
    split; [apply fits4_lenge; [lia|cbn; lia]|]. split; [apply fits2_lenge; cbn; lia|]. split; [apply fits4_lenge; cbn; lia|]. split; [exact E|].
    intros (_ & A & _). apply negb_true_iff in H. apply qcb_false in H. apply H. apply A; lia.
Qed.
Lemma one_index_ld_ref : exists no T LDT V LDV X LDX Tx LDTx Vx LDVx Tx' Vx',
  fits2 T LDT no no /\ fits4 V LDV no /\ fits2 X LDX no no /\ fits2 Tx LDTx no no /\ fits4 Vx LDVx no /\
  one_index_transformed_hamiltonian no T LDT V LDV X LDX Tx LDTx Vx LDVx = Ok (Tx', Vx') /\
  ~ filled2 Tx Tx' LDTx no no (one_index2 no (at2 X LDX) (at2 T LDT)).
Proof.
  set (T := [0; 1; 0; 1; 0; 0]%Qc). set (X := [0; 0; 1; 0]%Qc).
  destruct (okb_ok (one_index_transformed_hamiltonian 2 T 3 (repeat 0%Qc 16) 2 X 2 (repeat 0%Qc 4) 2 (repeat 0%Qc 16) 2)
    (fun TV => negb (Qc_eq_bool (at2 (fst TV) 2 0 0) (one_index2 2 (at2 X 2) (at2 T 3) 0 0)))) as ([Tx' Vx'] & E & H).
  - vm_compute. reflexivity.
  - exists 2, T, 3, (repeat 0%Qc 16), 2, X, 2, (repeat 0%Qc 4), 2, (repeat 0%Qc 16), 2, Tx', Vx'.
    split; [apply fits2_lenge; cbn; lia|]. split; [apply fits4_lenge; cbn; lia|]. split; [apply fits2_lenge; cbn; lia|].
    split; [apply fits2_lenge; cbn; lia|]. split; [apply fits4_lenge; cbn; lia|]. split; [exact E|].
    intros (_ & A & _). apply negb_true_iff in H. apply qcb_false in H. apply H. cbn [fst]. apply A; lia.
Qed.

(** ** MP2 *)
(* one occupied and one virtual orbital: t = -1/2 *)
Definition mp_T : list Qc := [(- (1))%Qc; 0; 0; 1]%Qc.
Definition mp_V : list Qc := tab4 2 (fun p q r s => if (p + q =? 1) && (r + s =? 1) then 1%Qc else 0%Qc).
Lemma mp_ok : fits2 mp_T 2 2 2 /\ fits4 mp_V 2 2 /\ eightfold 2 (at4 mp_V 2) /\
  amplitude 1 (at4 mp_V 2) (orbital_energy 1 (at2 mp_T 2) (at4 mp_V 2)) 0 0 0 0 = (- half)%Qc /\
  forall i j a b, i < 1 -> j < 1 -> a < 1 -> b < 1 -> denominator 1 (orbital_energy 1 (at2 mp_T 2) (at4 mp_V 2)) i j a b <> 0%Qc.
Proof.
  split; [apply fits2_lenge; cbn; lia|]. split; [apply fits4_lenge; [lia|]; unfold mp_V; rewrite tab4_len; lia|].
  split; [apply eightfold_dec; vm_compute; reflexivity|]. split; [apply qcb; vm_compute; reflexivity|].
  intros i j a b Hi Hj Ha Hb. replace i with 0 by lia. replace j with 0 by lia. replace a with 0 by lia. replace b with 0 by lia.
  apply qcb_false. vm_compute. reflexivity.
Qed.
Lemma mp2_garbage_ref : exists norb no nv T V P E P', norb = no + nv /\ fits2 T norb norb norb /\ fits4 V norb norb /\ fits2 P norb norb norb /\
  (forall i j a b, i < no -> j < no -> a < nv -> b < nv -> denominator no (orbital_energy no (at2 T norb) (at4 V norb)) i j a b <> 0%Qc) /\
  mp2_1rdm norb no nv T norb V norb P norb = Ok (E, P') /\ exists i a, i < no /\ a < nv /\ at2 P' norb i (a + no) <> 0%Qc.
Proof.
  destruct mp_ok as (A1 & A2 & A3 & _ & A4).
  destruct (okb_ok (mp2_1rdm 2 1 1 mp_T 2 mp_V 2 (repeat 1%Qc 4) 2) (fun x => negb (Qc_eq_bool (at2 (snd x) 2 0 1) 0%Qc))) as ([E P] & R & H).
  - vm_compute. reflexivity.
  - exists 2, 1, 1, mp_T, mp_V, (repeat 1%Qc 4), E, P. split; auto. split; auto. split; auto. split; [apply fits2_lenge; cbn; lia|].
    split; [exact A4|]. split; [exact R|]. exists 0, 0. split; [lia|]. split; [lia|]. apply negb_true_iff in H. apply qcb_false in H. exact H.
Qed.
(* two occupied orbitals and one virtual orbital, integrals stored with leading dimension 4 *)
Definition mp_T3 : list Qc := [(- (1))%Qc; 0; 0; 0; - (1 + 1); 0; 0; 0; 1]%Qc.
Definition mp_V3 : list Qc := tab4 4 (fun p q r s => if (p <? 3) && (q <? 3) && (r <? 3) && (s <? 3) then inject ((p + 1) * (q + 1) * (r + 1) * (s + 1)) else 0%Qc).
Lemma mp2_energy_ref : exists norb no nv T LDT V LDV P LDD E P', norb = no + nv /\ fits2 T LDT norb norb /\ fits4 V LDV norb /\ fits2 P LDD norb norb /\ eightfold norb (at4 V LDV) /\
  (forall i j a b, i < no -> j < no -> a < nv -> b < nv -> denominator no (orbital_energy no (at2 T LDT) (at4 V LDV)) i j a b <> 0%Qc) /\
  mp2_1rdm norb no nv T LDT V LDV P LDD = Ok (E, P') /\
  E <> correlation_energy no nv (at4 V LDV) (amplitude no (at4 V LDV) (orbital_energy no (at2 T LDT) (at4 V LDV))).
Proof.
  destruct (okb_ok (mp2_1rdm 3 2 1 mp_T3 3 mp_V3 4 (repeat 0%Qc 9) 3) (fun x => negb (Qc_eq_bool (fst x)
     (correlation_energy 2 1 (at4 mp_V3 4) (amplitude 2 (at4 mp_V3 4) (orbital_energy 2 (at2 mp_T3 3) (at4 mp_V3 4))))))) as ([E P] & R & H).
  - vm_compute. reflexivity.
  - exists 3, 2, 1, mp_T3, 3, mp_V3, 4, (repeat 0%Qc 9), 3, E, P. split; auto.
    split; [apply fits2_lenge; cbn; lia|]. split; [apply fits4_lenge; [lia|]; unfold mp_V3; rewrite tab4_len; lia|]. split; [apply fits2_lenge; cbn; lia|].
    split; [apply eightfold_dec; vm_compute; reflexivity|]. split.
    + assert (X : allb 2 (fun i => allb 2 (fun j => allb 1 (fun a => allb 1 (fun b => negb (Qc_eq_bool (denominator 2 (orbital_energy 2 (at2 mp_T3 3) (at4 mp_V3 4)) i j a b) 0%Qc))))) = true) by (vm_compute; reflexivity).
      intros i j a b Hi Hj Ha Hb. pose proof (allb_ok 2 _ X i Hi) as H1. cbv beta in H1. pose proof (allb_ok 2 _ H1 j Hj) as H2. cbv beta in H2.
      pose proof (allb_ok 1 _ H2 a Ha) as H3. cbv beta in H3. pose proof (allb_ok 1 _ H3 b Hb) as H4. cbv beta in H4. apply negb_true_iff in H4. apply qcb_false, H4.
    + split; [exact R|]. apply negb_true_iff in H. apply qcb_false, H.
Qed.
Lemma mp2_zero_ref : mp2_t2 1 1 (repeat 0%Qc 16) 2 [0; 0]%Qc [0%Qc] = Err NonFinite. Proof. vm_compute. reflexivity. Qed.

(** ** a step with a positive diagonal Hessian goes downhill *)
Lemma dot_nonpos n a b : (forall x, x < n -> (nth x a 0 * nth x b 0 <= 0)%Qc) -> (dot n a b <= 0)%Qc /\
  ((exists x, x < n /\ (nth x a 0 * nth x b 0 < 0)%Qc) -> (dot n a b < 0)%Qc).
Proof.
  unfold dot, Sigma. revert a b. assert (G : forall k a b, (forall x, k <= x < k + n -> (nth x a 0 * nth x b 0 <= 0)%Qc) ->
    (sum (seq k n) (fun x => nth x a 0 * nth x b 0) <= 0)%Qc /\ ((exists x, k <= x < k + n /\ (nth x a 0 * nth x b 0 < 0)%Qc) -> (sum (seq k n) (fun x => nth x a 0 * nth x b 0) < 0)%Qc)).
  { induction n as [|n IH]; intros k a b H; cbn [seq].
    - split; [apply Qcle_refl|]. intros (x & Hx & _). lia.
    - destruct (IH (S k) a b) as [I1 I2]. { intros x Hx. apply H. lia. }
      assert (H0 : (nth k a 0 * nth k b 0 <= 0)%Qc) by (apply H; lia).
      change (sum (k :: seq (S k) n) (fun x => nth x a 0 * nth x b 0)%Qc) with (nth k a 0 * nth k b 0 + sum (seq (S k) n) (fun x => nth x a 0 * nth x b 0))%Qc.
      set (u := (nth k a 0 * nth k b 0)%Qc) in *. set (w := sum (seq (S k) n) _) in *. split.
      + replace 0%Qc with (0 + 0)%Qc by ring. apply Qcplus_le_compat; auto.
      + intros (x & Hx & Lx). destruct (Nat.eq_dec x k) as [->|Ne].
        * apply Qcle_lt_trans with (u + 0)%Qc; [apply Qcplus_le_compat; [apply Qcle_refl|auto]|]. rewrite Qcplus_0_r. exact Lx.
        * apply Qcle_lt_trans with (0 + w)%Qc; [apply Qcplus_le_compat; [auto|apply Qcle_refl]|]. rewrite Qcplus_0_l. apply I2. exists x. split; auto. lia. }
  intros a b H. destruct (G 0 a b) as [G1 G2]. { intros x Hx. apply H. lia. } split; auto. intros (x & Hx & Lx). apply G2. exists x. split; auto. lia.
Qed.
Lemma Qcopp_lt a b : (a < b)%Qc -> (- b < - a)%Qc.
Proof. intros H. apply Qcnot_le_lt. intros L. apply Qcopp_le_compat in L. rewrite !Qcopp_involutive in L. revert L. apply Qclt_not_le, H. Qed.
Lemma step_term g h : (0 < h)%Qc -> (- g / h * g <= 0)%Qc /\ (g <> 0%Qc -> (- g / h * g < 0)%Qc).
Proof.
  intros Hh. assert (Hn : h <> 0%Qc) by (intros ->; apply (Qclt_not_eq _ _ Hh); reflexivity).
  assert (Hi : (0 < / h)%Qc).
  { destruct (Qclt_le_dec 0 (/ h)) as [l|l]; auto. exfalso. assert (X : (/ h * h <= 0 * h)%Qc) by (apply Qcmult_le_compat_r; [auto|apply Qclt_le_weak; auto]).
    rewrite Qcmult_0_l, Qcmult_comm, Qcmult_inv_r in X by auto. revert X. apply Qclt_not_le. reflexivity. }
  assert (E : (- g / h * g = - (g * g) * / h)%Qc) by (unfold Qcdiv; ring).
  rewrite E. assert (S : g <> 0%Qc -> (0 < g * g)%Qc).
  { intros Hg. destruct (Qc_dec g 0) as [[l|l]|l]; [| |contradiction].
    - replace (g * g)%Qc with (- g * - g)%Qc by ring. assert (0 < - g)%Qc by (apply Qcopp_lt in l; exact l). replace 0%Qc with (0 * - g)%Qc by ring. apply Qcmult_lt_compat_r; auto.
    - replace 0%Qc with (0 * g)%Qc by ring. apply Qcmult_lt_compat_r; auto. }
  assert (N : g <> 0%Qc -> (- (g * g) * / h < 0)%Qc).
  { intros Hg. replace 0%Qc with (0 * / h)%Qc by ring. apply Qcmult_lt_compat_r; auto. apply S in Hg. apply Qcopp_lt in Hg. exact Hg. }
  split; auto. destruct (Qc_eq_dec g 0) as [->|Hg].
  - replace (- (0 * 0) * / h)%Qc with 0%Qc by ring. apply Qcle_refl.
  - apply Qclt_le_weak. auto.
Qed.
Lemma precond_descent no ni na nv Fi LDFi Fa LDFa F LDF D LDD G K : let n := ni + na + nv in
  fits2 Fi LDFi n n -> fits2 Fa LDFa n n -> fits2 D LDD na na -> fits2 F LDF n n -> rot_size ni na nv <= length G -> rot_size ni na nv <= length K ->
  (forall p q, rotates ni na nv p q -> (0 < diagonal_hessian ni na (at2 Fi LDFi) (at2 Fa LDFa) (at2 F LDF) (at2 D LDD) p q)%Qc) ->
  exists K', precond_cg_orbital_step no ni na nv Fi LDFi Fa LDFa F LDF D LDD G K = Ok K' /\ (dot (rot_size ni na nv) K' G <= 0)%Qc /\
    ((exists x, x < rot_size ni na nv /\ nth x G 0%Qc <> 0%Qc) -> (dot (rot_size ni na nv) K' G < 0)%Qc).
Proof.
  intros n HFi HFa HD HF HG HK Hd.
  destruct (precond_ok no ni na nv Fi LDFi Fa LDFa F LDF D LDD G K) as (K' & E & _ & A & _); auto.
  { intros p q R e. pose proof (Hd p q R) as X. rewrite e in X. revert X. apply Qcle_not_lt. apply Qcle_refl. }
  exists K'. split; auto. destruct (dot_nonpos (rot_size ni na nv) K' G) as [N1 N2].
  - intros x Hx. destruct (rot_index_onto ni na nv x Hx) as (p & q & R & <-). rewrite A by auto. apply step_term; auto.
  - split; auto. intros (x & Hx & Nx). apply N2. exists x. split; auto. destruct (rot_index_onto ni na nv x Hx) as (p & q & R & <-). rewrite A by auto. apply step_term; auto.
Qed.

(** ** more glue *)
Lemma four_index_packed no nn X C LDC Y LDY : 0 < no -> 0 < nn -> fits4 X no no -> fits2 C LDC no nn -> fits4 Y nn nn ->
  exists Y', four_index_transform no nn X no C LDC Y LDY = Ok Y' /\ filled4 Y Y' nn nn (congruence4 no (at2 C LDC) (at4 X no)).
Proof.
  intros H0 H1 HX HC HY. destruct (four_index_ok no nn X no C LDC Y LDY) as (Y' & E & A); auto. { apply fits4_first; auto. }
  exists Y'. split; auto. eapply filled4_ext; [|exact A]. intros. apply congruence4_ext; auto. intros. apply first4_packed.
Qed.
Lemma compose2_ok n m k X C1 C2 C12 Y Z Z' : 0 < n -> 0 < m -> 0 < k ->
  fits2 X n n n -> fits2 C1 n n m -> fits2 C2 m m k -> fits2 C12 n n k -> fits2 Y m m m -> fits2 Z k k k -> fits2 Z' k k k ->
  (forall i j, i < n -> j < k -> at2 C12 n i j = product m (at2 C1 n) (at2 C2 m) i j) ->
  exists Y1 Z1 Z2, two_index_transform n m X n C1 n Y m = Ok Y1 /\ two_index_transform m k Y1 m C2 m Z k = Ok Z1 /\
    two_index_transform n k X n C12 n Z' k = Ok Z2 /\ forall p q, p < k -> q < k -> at2 Z1 k p q = at2 Z2 k p q.
Proof.
  intros H0 H1 H2 HX HC1 HC2 HC12 HY HZ HZ' HP.
  destruct (two_index_ok n m X n C1 n Y m) as (Y1 & E1 & A1); auto.
  destruct (two_index_ok m k Y1 m C2 m Z k) as (Z1 & E2 & A2); auto. { eapply fits2_filled; eauto. }
  destruct (two_index_ok n k X n C12 n Z' k) as (Z2 & E3 & A3); auto.
  exists Y1, Z1, Z2. split; auto. split; auto. split; auto. intros p q Hp Hq.
  rewrite (filled2_at _ _ _ _ _ _ _ _ A2), (filled2_at _ _ _ _ _ _ _ _ A3) by auto.
  transitivity (congruence2 m (at2 C2 m) (congruence2 n (at2 C1 n) (at2 X n)) p q).
  - apply congruence2_ext; auto. intros i j Hi Hj. apply (filled2_at _ _ _ _ _ _ _ _ A1); auto.
  - rewrite congruence2_compose. unfold congruence2. apply Sigma_ext2. intros i j Hi Hj. rewrite !HP by auto. reflexivity.
Qed.
Lemma compose4_ok n m k X C1 C2 C12 Y Z Z' : 0 < n -> 0 < m -> 0 < k ->
  fits4 X n n -> fits2 C1 n n m -> fits2 C2 m m k -> fits2 C12 n n k -> fits4 Y m m -> fits4 Z k k -> fits4 Z' k k ->
  (forall i j, i < n -> j < k -> at2 C12 n i j = product m (at2 C1 n) (at2 C2 m) i j) ->
  exists Y1 Z1 Z2, four_index_transform n m X n C1 n Y m = Ok Y1 /\ four_index_transform m k Y1 m C2 m Z k = Ok Z1 /\
    four_index_transform n k X n C12 n Z' k = Ok Z2 /\
    forall p q r s, p < k -> q < k -> r < k -> s < k -> at4 Z1 k p q r s = at4 Z2 k p q r s.
Proof.
  intros H0 H1 H2 HX HC1 HC2 HC12 HY HZ HZ' HP.
  destruct (four_index_packed n m X C1 n Y m) as (Y1 & E1 & A1); auto.
  destruct (four_index_packed m k Y1 C2 m Z k) as (Z1 & E2 & A2); auto. { eapply fits4_filled; eauto. }
  destruct (four_index_packed n k X C12 n Z' k) as (Z2 & E3 & A3); auto.
  exists Y1, Z1, Z2. split; auto. split; auto. split; auto. intros p q r s Hp Hq Hr Hs.
  rewrite (filled4_at _ _ _ _ _ _ _ _ _ A2), (filled4_at _ _ _ _ _ _ _ _ _ A3) by auto.
  transitivity (congruence4 m (at2 C2 m) (congruence4 n (at2 C1 n) (at4 X n)) p q r s).
  - apply congruence4_ext; auto. intros i j a b Hi Hj Ha Hb. apply (filled4_at _ _ _ _ _ _ _ _ _ A1); auto.
  - rewrite congruence4_compose. apply congruence4_ext; auto. intros i Hi. rewrite !HP by auto. auto.
Qed.
Lemma c45_ex : fits2 ex_T 3 3 3 /\ fits2 [1; 1; 1; 0; 1; 1]%Qc 3 3 2 /\ fits2 (repeat 0%Qc 6) 3 2 2 /\
  congruence2 3 (at2 [1; 1; 1; 0; 1; 1]%Qc 3) (at2 ex_T 3) 0 1 = inject 35 /\
  congruence2 3 (at2 [1; 1; 1; 0; 1; 1]%Qc 3) (at2 ex_T 3) 1 1 = inject 30.
Proof.
  split; [apply ex_ok|]. split; [apply fits2_lenge; cbn; lia|]. split; [apply fits2_lenge; cbn; lia|].
  split; apply qcb; vm_compute; reflexivity.
Qed.
Lemma inactive_both no ni T LDT V LDV Fi LDF : ni <= no -> fits2 T LDT no no -> fits4 V LDV no -> fits2 Fi LDF no no ->
  exists Fi', inactive_fock_matrix no ni T LDT V LDV Fi LDF = Ok Fi' /\
    filled2 Fi Fi' LDF no no (inactive_fock ni (at2 T LDT) (at4 V LDV)) /\
    inactive_energy ni T LDT Fi' LDF = Ok (core_energy ni (at2 T LDT) (at4 V LDV)).
Proof.
  intros Hn HT HV HF. destruct (inactive_fock_ok no ni T LDT V LDV Fi LDF) as (Fi' & E & A); auto. exists Fi'. split; auto. split; auto.
  rewrite inactive_energy_ok. 2:{ apply (fits2_le _ _ no no); auto. } 2:{ apply (fits2_le _ _ no no); auto. eapply fits2_filled; eauto. }
  f_equal. rewrite <- core_energy_fock. apply Sigma_ext. intros i Hi. rewrite (filled2_at _ _ _ _ _ _ _ _ A) by lia. reflexivity.
Qed.
Lemma c46_unsym_ref : exists no ni na T V D D2 F' e, ni + na <= no /\ fits2 T no no no /\ fits4 V no no /\
  symmetric2 na (at2 D na) /\
  generalized_fock_matrix_comp_mat2 no ni na T no V no D na D2 na (repeat 0%Qc (no * no)) no = Ok F' /\
  energy_from_generalized_fock ni na T no D na F' no = Ok e /\ e <> total_energy ni na (at2 T no) (at4 V no) (at2 D na) (at4 D2 na).
Proof.
  set (V := pick 12 16).
  destruct (okb_ok (do F <- generalized_fock_matrix_comp_mat2 2 1 1 (repeat 0%Qc 4) 2 V 2 [1%Qc] 1 [1%Qc] 1 (repeat 0%Qc 4) 2;
     do e <- energy_from_generalized_fock 1 1 (repeat 0%Qc 4) 2 [1%Qc] 1 F 2; Ok (F, e))
    (fun x => negb (Qc_eq_bool (snd x) (total_energy 1 1 (at2 (repeat 0%Qc 4) 2) (at4 V 2) (at2 [1%Qc] 1) (at4 [1%Qc] 1))))) as ([F e] & E & H).
  - vm_compute. reflexivity.
  - destruct (generalized_fock_matrix_comp_mat2 2 1 1 (repeat 0%Qc 4) 2 V 2 [1%Qc] 1 [1%Qc] 1 (repeat 0%Qc 4) 2) as [F0|] eqn:E1; cbn [bind] in E; [|discriminate].
    destruct (energy_from_generalized_fock 1 1 (repeat 0%Qc 4) 2 [1%Qc] 1 F0 2) as [e0|] eqn:E2; cbn [bind] in E; [|discriminate]. injection E as -> ->.
    exists 2, 1, 1, (repeat 0%Qc 4), V, [1%Qc], [1%Qc], F, e. split; [lia|]. split; [apply fits2_lenge; cbn; lia|]. split; [apply fits4_lenge; cbn; lia|].
    split; [apply symmetric2_dec; vm_compute; reflexivity|]. split; [exact E1|]. split; [exact E2|]. apply negb_true_iff in H. apply qcb_false, H.
Qed.
Lemma c47_anti ni na nv k p q :
  rot_matrix ni na nv k q p = (- rot_matrix ni na nv k p q)%Qc /\
  (~ rotates ni na nv p q -> ~ rotates ni na nv q p -> rot_matrix ni na nv k p q = 0%Qc).
Proof. split; [apply rot_matrix_anti|apply rot_matrix_zero]. Qed.
Lemma rot_index_inj ni na nv p q p' q' : rotates ni na nv p q -> rotates ni na nv p' q' -> rot_index ni na nv p q = rot_index ni na nv p' q' -> p = p' /\ q = q'.
Proof.
  intros R R' E. rewrite rotates_cases in R, R'.
  destruct R as [(i & a & Hi & Ha & -> & ->)|[(i & a & Hi & Ha & -> & ->)|(i & a & Hi & Ha & -> & ->)]];
  destruct R' as [(i' & a' & Hi' & Ha' & -> & ->)|[(i' & a' & Hi' & Ha' & -> & ->)|(i' & a' & Hi' & Ha' & -> & ->)]];
  repeat first [rewrite rot_index_vi in E by auto|rewrite rot_index_va in E|rewrite rot_index_ai in E by auto].
  - apply pos2_inj in E; auto. lia.
  - pose proof (cell nv ni a i Hi Ha). lia.
  - pose proof (cell nv ni a i Hi Ha). lia.
  - pose proof (cell nv ni a' i' Hi' Ha'). lia.
  - assert (E' : a + i * nv = a' + i' * nv) by lia. apply pos2_inj in E'; auto. lia.
  - pose proof (cell nv na a i Hi Ha). lia.
  - pose proof (cell nv ni a' i' Hi' Ha'). lia.
  - pose proof (cell nv na a' i' Hi' Ha'). lia.
  - assert (E' : a + i * na = a' + i' * na) by lia. apply pos2_inj in E'; auto. lia.
Qed.
Lemma c47_positions ni na nv :
  (forall p q, rotates ni na nv p q -> rot_index ni na nv p q < rot_size ni na nv) /\
  (forall x, x < rot_size ni na nv -> exists p q, rotates ni na nv p q /\ rot_index ni na nv p q = x) /\
  (forall p q p' q', rotates ni na nv p q -> rotates ni na nv p' q' -> rot_index ni na nv p q = rot_index ni na nv p' q' -> p = p' /\ q = q').
Proof. split; [intros; apply rot_index_bound; auto|]. split; [intros; apply rot_index_onto; auto|]. intros. eapply rot_index_inj; eauto. Qed.
Lemma c47_ex : rot_size 1 2 1 = 5 /\ rotates 1 2 1 3 0 /\ rotates 1 2 1 3 2 /\ rotates 1 2 1 2 0 /\ ~ rotates 1 2 1 2 1 /\
  map (fun pq => rot_index 1 2 1 (fst pq) (snd pq)) [(3, 0); (3, 1); (3, 2); (1, 0); (2, 0)] = [0; 1; 2; 3; 4] /\
  rot_matrix 1 2 1 (map inject [7; 8; 9; 10; 11]) 2 0 = inject 11 /\ rot_matrix 1 2 1 (map inject [7; 8; 9; 10; 11]) 1 3 = (- inject 8)%Qc.
Proof. split; [reflexivity|]. do 4 (split; [unfold rotates; lia|]). split; [reflexivity|]. split; reflexivity. Qed.
Lemma c48_sym no nv V eps : let t := amplitude no V eps in
  (forall i j, occupied_block no nv t i j = occupied_block no nv t j i) /\
  (pair_symmetric (no + nv) V -> forall a b, a < nv -> b < nv -> virtual_block no nv t a b = virtual_block no nv t b a).
Proof.
  intros t. split; [intros; apply occupied_sym|]. intros HV a b Ha Hb. apply virtual_sym; auto. intros i j c d Hi Hj Hc Hd. apply (amplitude_sym no nv); auto.
Qed.
(** arrays meeting the hypotheses of the theorem on the preconditioned step *)
Definition st_F : list Qc := [- (1); 0; 0; 0; 0; 0; 0; 0; 1]%Qc.
Lemma st_ok : fits2 st_F 3 3 3 /\ fits2 (repeat 0%Qc 9) 3 3 3 /\ fits2 ex_D 1 1 1 /\ rot_size 1 1 1 = 3 /\
  forall p q, rotates 1 1 1 p q -> (0 < diagonal_hessian 1 1 (at2 st_F 3) (at2 (repeat 0%Qc 9) 3) (at2 (repeat 0%Qc 9) 3) (at2 ex_D 1) p q)%Qc.
Proof.
  split; [apply fits2_lenge; cbn; lia|]. split; [apply fits2_lenge; cbn; lia|]. split; [apply fits2_lenge; cbn; lia|]. split; [reflexivity|].
  intros p q H. assert (C : (p = 2 /\ q = 0) \/ (p = 1 /\ q = 0) \/ (p = 2 /\ q = 1)) by (unfold rotates in H; lia).
  destruct C as [[-> ->]|[[-> ->]|[-> ->]]]; vm_compute; reflexivity.
Qed.
