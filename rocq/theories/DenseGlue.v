(** Glue for Props_Dense: the rotated energy, its derivatives, the diagonal Hessian and the preconditioned step. *)
From Coq Require Import QArith Qcanon Qcabs Bool Lia.
From Verif Require Import Base Sums Ham HamProofs Asci Mem MemProofs SparseProofs1 RdmIOProofs Dense DenseSpec DenseProofs FockMatProofs RotProofs LinRespProofs HessProofs ExpandProofs SymProofs Mp2Proofs.
Local Open Scope nat_scope.

Lemma congruence4_pair' no C V : pair_symmetric no V -> pair_symmetric no (congruence4 no C V). Proof. apply congruence4_pair. Qed.
Lemma rotated_energy_ok no ni na T LDT V LDV D LDD1 D2 LDD2 U LDU Tt LDTT Vt F LDF : 0 < no -> 0 < LDD1 -> ni + na <= no ->
  fits2 T LDT no no -> LDV = no -> fits4 V LDV no -> fits2 D LDD1 na na -> fits4 D2 LDD2 na -> fits2 U LDU no no ->
  fits2 Tt LDTT no no -> fits4 Vt no no -> fits2 F LDF no no ->
  pair_symmetric no (at4 V LDV) -> symmetric2 na (at2 D LDD1) ->
  exists Tt' Vt' F', orbital_rotated_generalized_fock no ni na T LDT V LDV D LDD1 D2 LDD2 U LDU Tt LDTT Vt no F LDF = Ok (Tt', Vt', F') /\
    filled2 Tt Tt' LDTT no no (congruence2 no (at2 U LDU) (at2 T LDT)) /\
    filled4 Vt Vt' no no (congruence4 no (at2 U LDU) (at4 V LDV)) /\
    filled2 F F' LDF (ni + na) no (generalized_fock ni na (congruence2 no (at2 U LDU) (at2 T LDT)) (congruence4 no (at2 U LDU) (at4 V LDV)) (at2 D LDD1) (at4 D2 LDD2)) /\
    orbital_rotated_energy no ni na T LDT V LDV D LDD1 D2 LDD2 U LDU Tt LDTT Vt no F LDF =
      Ok (total_energy ni na (congruence2 no (at2 U LDU) (at2 T LDT)) (congruence4 no (at2 U LDU) (at4 V LDV)) (at2 D LDD1) (at4 D2 LDD2)).
Proof.
  intros H0 H1 Hn HT EL HV HD HD2 HU HTt HVt HF Hp Hs. subst LDV.
  destruct (two_index_ok no no T LDT U LDU Tt LDTT) as (Tt' & E1 & A1); auto.
  destruct (four_index_ok no no V no U LDU Vt no) as (Vt' & E2 & A2); auto. { apply fits4_first; auto. }
  assert (A2' : filled4 Vt Vt' no no (congruence4 no (at2 U LDU) (at4 V no))).
  { eapply filled4_ext; [|exact A2]. intros. apply congruence4_ext; auto. intros. apply first4_packed. }
  assert (FT : fits2 Tt' LDTT no no) by (eapply fits2_filled; eauto).
  assert (FV : fits4 Vt' no no) by (eapply fits4_filled; eauto).
  destruct (comp_mat2_ok no ni na Tt' LDTT Vt' no D LDD1 D2 LDD2 F LDF) as (F' & E3 & A3); auto. { apply (fits2_le _ _ no no); auto. }
  assert (XT : forall a b, a < no -> b < no -> at2 Tt' LDTT a b = congruence2 no (at2 U LDU) (at2 T LDT) a b) by (intros; apply (filled2_at _ _ _ _ _ _ _ _ A1); auto).
  assert (XV : forall a b c d, a < no -> b < no -> c < no -> d < no -> at4 Vt' no a b c d = congruence4 no (at2 U LDU) (at4 V no) a b c d) by (intros; apply (filled4_at _ _ _ _ _ _ _ _ _ A2'); auto).
  exists Tt', Vt', F'. unfold orbital_rotated_energy, orbital_rotated_generalized_fock. rewrite E1. cbn [bind]. rewrite E2. cbn [bind]. rewrite E3. cbn [bind].
  split; [reflexivity|]. split; [exact A1|]. split; [exact A2'|]. split.
  - eapply filled2_ext; [|exact A3]. intros r p Hr Hp'.
    pose proof (full_fock_ext no ni na (at2 Tt' LDTT) (at4 Vt' no) (congruence2 no (at2 U LDU) (at2 T LDT)) (congruence4 no (at2 U LDU) (at4 V no)) (at2 D LDD1) (at4 D2 LDD2) r p Hn Hp' XT XV) as X.
    unfold full_fock in X. destruct (Nat.ltb_spec r (ni + na)); [exact X|lia].
  - destruct (energy_generalized_ok no ni na Tt' LDTT Vt' no D LDD1 D2 LDD2 F LDF) as (F'' & E3' & E4); auto.
    + apply (fits2_le _ _ no no); auto.
    + intros p q r s Hp1 Hq Hr Hs'. rewrite !XV by auto. apply congruence4_pair; auto.
    + rewrite E3 in E3'. injection E3' as <-. rewrite E4. f_equal. apply (total_energy_ext no); auto.
Qed.
Lemma rotated_energy'_ok no ni na T LDT V D LDD1 D2 LDD2 U LDU : 0 < no -> 0 < LDD1 -> ni + na <= no ->
  fits2 T LDT no no -> fits4 V no no -> fits2 D LDD1 na na -> fits4 D2 LDD2 na -> fits2 U LDU no no ->
  pair_symmetric no (at4 V no) -> symmetric2 na (at2 D LDD1) ->
  orbital_rotated_energy' no ni na T LDT V no D LDD1 D2 LDD2 U LDU =
    Ok (total_energy ni na (congruence2 no (at2 U LDU) (at2 T LDT)) (congruence4 no (at2 U LDU) (at4 V no)) (at2 D LDD1) (at4 D2 LDD2)).
Proof.
  intros H0 H1 Hn HT HV HD HD2 HU Hp Hs.
  destruct (rotated_energy_ok no ni na T LDT V no D LDD1 D2 LDD2 U LDU (repeat 0%Qc (no * no)) no (repeat 0%Qc (no * no * (no * no))) (repeat 0%Qc (no * no)) no)
    as (a & b & c & _ & _ & _ & _ & E); auto using fits2_repeat, fits4_repeat.
Qed.
(** the gradient and the Hessian product are derivatives of that energy *)
Lemma eight_pair n V : eightfold n V -> pair_symmetric n V. Proof. intros H p q r s Hp Hq Hr Hs. apply H; auto. Qed.
Lemma energy_derivatives no ni na nv T V D LDD1 D2 LDD2 k HK (U : Qc -> list Qc) : no = ni + na + nv -> 0 < no -> 0 < LDD1 ->
  fits2 T no no no -> fits4 V no no -> fits2 D LDD1 na na -> fits4 D2 LDD2 na -> rot_size ni na nv <= length k -> rot_size ni na nv <= length HK ->
  symmetric2 no (at2 T no) -> eightfold no (at4 V no) -> symmetric2 na (at2 D LDD1) -> fourfold na (at4 D2 LDD2) ->
  (forall t, fits2 (U t) no no no) -> rotation_family no (fun t => at2 (U t) no) (rot_matrix ni na nv k) ->
  exists F g h (E : Qc -> Qc),
    generalized_fock_matrix_comp_mat2 no ni na T no V no D LDD1 D2 LDD2 (repeat 0%Qc (no * no)) no = Ok F /\
    pack_gradient ni na nv F no (repeat 0%Qc (rot_size ni na nv)) = Ok g /\
    orb_orb_hessian_contract no ni na nv T no V no D LDD1 D2 LDD2 g k HK = Ok h /\
    (forall t, orbital_rotated_energy' no ni na T no V no D LDD1 D2 LDD2 (U t) no = Ok (E t)) /\
    energy_from_generalized_fock ni na T no D LDD1 F no = Ok (total_energy ni na (at2 T no) (at4 V no) (at2 D LDD1) (at4 D2 LDD2)) /\
    expands E (total_energy ni na (at2 T no) (at4 V no) (at2 D LDD1) (at4 D2 LDD2)) (dot (rot_size ni na nv) k g) (half * dot (rot_size ni na nv) k h).
Proof.
  intros En H0 H1 HT HV HD HD2 Lk LH ST SV SD SD2 HU RF.
  destruct (comp_mat2_zero no ni na T no V no D LDD1 D2 LDD2) as (F & EF & LF & AF); auto; [lia|].
  destruct (pack_gradient_ok ni na nv F no (repeat 0%Qc (rot_size ni na nv))) as (g & Eg & Lg & Ag & _).
  { rewrite repeat_length. auto. } { rewrite <- En. apply fits2_len. auto. }
  rewrite repeat_length in Lg.
  destruct (hessian_ok no ni na nv T V no D LDD1 D2 LDD2 g k HK) as (h & Eh & _ & _ & Ah); auto; [lia|].
  exists F, g, h, (fun t => total_energy ni na (congruence2 no (at2 (U t) no) (at2 T no)) (congruence4 no (at2 (U t) no) (at4 V no)) (at2 D LDD1) (at4 D2 LDD2)).
  split; [auto|]. split; [auto|]. split; [auto|]. split.
  { intros t. apply rotated_energy'_ok; auto using eight_pair. lia. } split.
  { destruct (energy_generalized_ok no ni na T no V no D LDD1 D2 LDD2 (repeat 0%Qc (no * no)) no) as (F' & EF' & EE); auto using eight_pair; [lia| |].
    - apply (fits2_le _ _ no no); [apply fits2_repeat|lia|lia].
    - rewrite EF in EF'. injection EF' as <-. exact EE. }
  apply (energy_along_rotation no ni na nv (at2 T no) (at4 V no) (at2 D LDD1) (at4 D2 LDD2) k g h (fun t => at2 (U t) no)); auto.
  intros p q R. rewrite Ag by auto. pose proof (rotates_bound _ _ _ _ _ R). rewrite !AF by lia. reflexivity.
Qed.
Lemma hessian_product_asymmetry no ni na nv T V D LDD1 D2 LDD2 l k HL HK : no = ni + na + nv -> 0 < no -> 0 < LDD1 ->
  fits2 T no no no -> fits4 V no no -> fits2 D LDD1 na na -> fits4 D2 LDD2 na ->
  rot_size ni na nv <= length l -> rot_size ni na nv <= length k -> rot_size ni na nv <= length HL -> rot_size ni na nv <= length HK ->
  symmetric2 no (at2 T no) -> eightfold no (at4 V no) -> symmetric2 na (at2 D LDD1) -> fourfold na (at4 D2 LDD2) ->
  (let F := generalized_fock ni na (at2 T no) (at4 V no) (at2 D LDD1) (at4 D2 LDD2) in
   forall x y, x < na -> y < na -> F (x + ni) (y + ni) = F (y + ni) (x + ni)) ->
  exists F g hl hk,
    generalized_fock_matrix_comp_mat2 no ni na T no V no D LDD1 D2 LDD2 (repeat 0%Qc (no * no)) no = Ok F /\
    pack_gradient ni na nv F no (repeat 0%Qc (rot_size ni na nv)) = Ok g /\
    orb_orb_hessian_contract no ni na nv T no V no D LDD1 D2 LDD2 g l HL = Ok hl /\
    orb_orb_hessian_contract no ni na nv T no V no D LDD1 D2 LDD2 g k HK = Ok hk /\
    let L := rot_matrix ni na nv l in let K := rot_matrix ni na nv k in let G := rot_matrix ni na nv g in
    (dot (rot_size ni na nv) l hk - dot (rot_size ni na nv) k hl =
     - (half * Sigma no (fun p => Sigma no (fun q => G p q * (product no L K p q - product no K L p q)))))%Qc.
Proof.
  intros En H0 H1 HT HV HD HD2 Ll Lk LHL LHK ST SV SD SD2 HA.
  destruct (comp_mat2_zero no ni na T no V no D LDD1 D2 LDD2) as (F & EF & LF & AF); auto; [lia|].
  destruct (pack_gradient_ok ni na nv F no (repeat 0%Qc (rot_size ni na nv))) as (g & Eg & Lg & Ag & _).
  { rewrite repeat_length. auto. } { rewrite <- En. apply fits2_len. auto. }
  rewrite repeat_length in Lg.
  destruct (hessian_ok no ni na nv T V no D LDD1 D2 LDD2 g k HK) as (hk & Ek & _ & _ & Ak); auto; [lia|].
  destruct (hessian_ok no ni na nv T V no D LDD1 D2 LDD2 g l HL) as (hl & El & _ & _ & Al); auto; [lia|].
  exists F, g, hl, hk. split; [auto|]. split; [auto|]. split; [auto|]. split; [auto|].
  apply (hessian_asymmetry no ni na nv (at2 T no) (at4 V no) (at2 D LDD1) (at4 D2 LDD2) g l k hl hk); auto.
  - intros p q R. rewrite Ag by auto. pose proof (rotates_bound _ _ _ _ _ R). rewrite !AF by lia. reflexivity.
  - intros x y Hx Hy. unfold full_fock. destruct (Nat.ltb_spec (x + ni) (ni + na)), (Nat.ltb_spec (y + ni) (ni + na)); try lia. apply HA; auto.
Qed.
Lemma hessian_symmetric_stationary no ni na nv T V D LDD1 D2 LDD2 l k HL HK : no = ni + na + nv -> 0 < no -> 0 < LDD1 ->
  fits2 T no no no -> fits4 V no no -> fits2 D LDD1 na na -> fits4 D2 LDD2 na ->
  rot_size ni na nv <= length l -> rot_size ni na nv <= length k -> rot_size ni na nv <= length HL -> rot_size ni na nv <= length HK ->
  symmetric2 no (at2 T no) -> eightfold no (at4 V no) -> symmetric2 na (at2 D LDD1) -> fourfold na (at4 D2 LDD2) ->
  (let F := generalized_fock ni na (at2 T no) (at4 V no) (at2 D LDD1) (at4 D2 LDD2) in
   forall x y, x < na -> y < na -> F (x + ni) (y + ni) = F (y + ni) (x + ni)) ->
  exists F g hl hk,
    generalized_fock_matrix_comp_mat2 no ni na T no V no D LDD1 D2 LDD2 (repeat 0%Qc (no * no)) no = Ok F /\
    pack_gradient ni na nv F no (repeat 0%Qc (rot_size ni na nv)) = Ok g /\
    orb_orb_hessian_contract no ni na nv T no V no D LDD1 D2 LDD2 g l HL = Ok hl /\
    orb_orb_hessian_contract no ni na nv T no V no D LDD1 D2 LDD2 g k HK = Ok hk /\
    ((forall x, x < rot_size ni na nv -> nth x g 0%Qc = 0%Qc) -> dot (rot_size ni na nv) l hk = dot (rot_size ni na nv) k hl).
Proof.
  intros En H0 H1 HT HV HD HD2 Ll Lk LHL LHK ST SV SD SD2 HA.
  destruct (hessian_product_asymmetry no ni na nv T V D LDD1 D2 LDD2 l k HL HK) as (F & g & hl & hk & E1 & E2 & E3 & E4 & E5); auto.
  exists F, g, hl, hk. split; [auto|]. split; [auto|]. split; [auto|]. split; [auto|]. intros Hg. cbv zeta in E5.
  assert (Z : forall p q, rot_matrix ni na nv g p q = 0%Qc).
  { intros p q. unfold rot_matrix. destruct (rotatesb ni na nv p q) eqn:R1.
    - apply Hg. apply rot_index_bound. apply rotatesb_iff. auto.
    - destruct (rotatesb ni na nv q p) eqn:R2; auto. rewrite Hg; [ring|]. apply rot_index_bound. apply rotatesb_iff. auto. }
  rewrite (Sigma_ext no _ (fun _ => 0%Qc)) in E5.
  - rewrite Sigma_0 in E5. set (a := dot _ l hk) in *. set (b := dot _ k hl) in *. transitivity (a - b + b)%Qc; [ring|]. rewrite E5. ring.
  - intros p _. rewrite (Sigma_ext no _ (fun _ => 0%Qc)); [apply Sigma_0|]. intros q _. rewrite Z. ring.
Qed.

(** ** the diagonal Hessian and the preconditioned step *)
Lemma diag_hessian_ok ni na nv Fi LDFi Fa LDFa D LDD F LDF H : let n := ni + na + nv in
  fits2 Fi LDFi n n -> fits2 Fa LDFa n n -> fits2 D LDD na na -> fits2 F LDF n n -> rot_size ni na nv <= length H ->
  exists H', approx_diag_hessian_packed ni na nv Fi LDFi Fa LDFa D LDD F LDF H = Ok H' /\ length H' = length H /\
    (forall p q, rotates ni na nv p q -> nth (rot_index ni na nv p q) H' 0%Qc = diagonal_hessian ni na (at2 Fi LDFi) (at2 Fa LDFa) (at2 F LDF) (at2 D LDD) p q) /\
    (forall x, rot_size ni na nv <= x -> nth x H' 0%Qc = nth x H 0%Qc).
Proof.
  intros n HFi HFa HD HF HH.
  set (dh := diagonal_hessian ni na (at2 Fi LDFi) (at2 Fa LDFa) (at2 F LDF) (at2 D LDD)).
  assert (R : forall p, p < n -> (do x <- at_ Fi (p + p * LDFi); (do y <- at_ Fa (p + p * LDFa); Ok (x + y)%Qc)) = Ok (at2 Fi LDFi p p + at2 Fa LDFa p p)%Qc).
  { intros p Hp. rewrite (read2 Fi LDFi n n) by auto. cbn [bind]. rewrite (read2 Fa LDFa n n) by auto. reflexivity. }
  pose proof (pack_ok (fun _ p q => Ok (dh p q)) ni na nv [] H dh HH) as PO.
  unfold approx_diag_hessian_packed, split_linear in *. destruct PO as (H' & E & L & A & B); auto.
  exists H'. split; [|auto]. rewrite <- E. unfold approx_diag_hessian, pack_blocks.
  assert (X : forall (l : list (nat * nat)) (f g : list Qc -> nat * nat -> res (list Qc)) s, (forall s e, In e l -> f s e = g s e) -> foldM l f s = foldM l g s).
  { induction l as [|e l IH]; intros f g s Hfg; cbn; auto. rewrite Hfg by (left; auto). destruct (g s e); cbn; auto. apply IH. intros. apply Hfg. right; auto. }
  assert (B2 : forall (m m' : res (list Qc)) (k k' : list Qc -> res (list Qc)), m = m' -> (forall x, k x = k' x) -> bind m k = bind m' k').
  { intros m m' k k' -> Hk. destruct m'; cbn; auto. }
  apply B2; [|intros s1; apply B2; [|intros s2]]; apply X; intros s [i a] Hin; apply in_loop2 in Hin; destruct Hin as [Hi Ha]; cbv zeta.
  - rewrite !R by (unfold n; lia). cbn [bind]. f_equal. unfold dh, diagonal_hessian. destruct (Nat.ltb_spec i ni); [|lia]. destruct (Nat.ltb_spec (a + ni + na) (ni + na)); [lia|].
    rewrite !twice_two. ring.
  - rewrite (read2 D LDD na na) by auto. cbn [bind]. rewrite !R by (unfold n; lia). cbn [bind]. rewrite (read2 F LDF n n) by (auto; unfold n; lia). cbn [bind].
    f_equal. unfold dh, diagonal_hessian. destruct (Nat.ltb_spec (i + ni) ni); [lia|]. replace (i + ni - ni) with i by lia. rewrite !twice_two. ring.
  - rewrite (read2 D LDD na na) by auto. cbn [bind]. rewrite !R by (unfold n; lia). cbn [bind]. rewrite (read2 F LDF n n) by (auto; unfold n; lia). cbn [bind].
    f_equal. unfold dh, diagonal_hessian. destruct (Nat.ltb_spec i ni); [|lia]. destruct (Nat.ltb_spec (a + ni) (ni + na)); [|lia].
    replace (a + ni - ni) with a by lia. rewrite !twice_two. ring.
Qed.
Lemma size_eq ni na nv : nv * (na + ni) + na * ni = rot_size ni na nv. Proof. unfold rot_size. lia. Qed.
Lemma diag_hessian_integrals_ok no ni na nv T LDT V LDV D LDD1 D2 LDD2 H : no = ni + na + nv -> 0 < no -> 0 < LDD1 ->
  fits2 T LDT no no -> fits4 V LDV no -> fits2 D LDD1 na na -> fits4 D2 LDD2 na -> rot_size ni na nv <= length H ->
  exists H', approx_diag_hessian_integrals no ni na nv T LDT V LDV D LDD1 D2 LDD2 H = Ok H' /\ length H' = length H /\
    (forall p q, rotates ni na nv p q -> nth (rot_index ni na nv p q) H' 0%Qc =
       diagonal_hessian ni na (inactive_fock ni (at2 T LDT) (at4 V LDV)) (active_fock ni na (at4 V LDV) (at2 D LDD1))
         (generalized_fock ni na (at2 T LDT) (at4 V LDV) (at2 D LDD1) (at4 D2 LDD2)) (at2 D LDD1) p q) /\
    (forall x, rot_size ni na nv <= x -> nth x H' 0%Qc = nth x H 0%Qc).
Proof.
  intros En H0 H1 HT HV HD HD2 HH. unfold approx_diag_hessian_integrals.
  destruct (inactive_fock_ok no ni T LDT V LDV (repeat 0%Qc (no * no)) no) as (Fi & -> & AI); auto; [lia|apply fits2_repeat|]. cbn [bind].
  destruct (active_fock_ok no ni na V LDV D LDD1 (repeat 0%Qc (no * no)) no) as (Fa & -> & AA); auto; [lia|apply fits2_repeat|]. cbn [bind].
  destruct (aux_q_ok na no ni V LDV D2 LDD2 (repeat 0%Qc (na * no)) na) as (Q & -> & AQ); auto; [lia|apply fits2_repeat|]. cbn [bind].
  destruct (generalized_ok no ni na Fi no Fa no D LDD1 Q na (repeat 0%Qc (no * no)) no) as (F & -> & AF); auto; [lia| | | | |].
  { eapply fits2_filled; [exact AI|apply fits2_repeat]. } { eapply fits2_filled; [exact AA|apply fits2_repeat]. }
  { eapply fits2_filled; [exact AQ|apply fits2_repeat]. } { apply (fits2_le _ _ no no); [apply fits2_repeat|lia|lia]. }
  cbn [bind].
  destruct (diag_hessian_ok ni na nv Fi no Fa no D LDD1 F no H) as (H' & -> & L & A & B); auto.
  { rewrite <- En. eapply fits2_filled; [exact AI|apply fits2_repeat]. } { rewrite <- En. eapply fits2_filled; [exact AA|apply fits2_repeat]. }
  { rewrite <- En. eapply fits2_filled; [exact AF|apply fits2_repeat]. }
  exists H'. split; auto. split; auto. split; auto. intros p q R. rewrite A by auto. pose proof (rotates_bound _ _ _ _ _ R) as (Bp & Bq & _).
  assert (EF : forall r, r < ni + na -> at2 F no r r = generalized_fock ni na (at2 T LDT) (at4 V LDV) (at2 D LDD1) (at4 D2 LDD2) r r).
  { intros r Hr. rewrite (filled2_at _ _ _ _ _ _ _ _ AF) by lia.
    transitivity (gen_rows ni na (inactive_fock ni (at2 T LDT) (at4 V LDV)) (active_fock ni na (at4 V LDV) (at2 D LDD1)) (at2 D LDD1) (q_matrix ni na (at4 V LDV) (at4 D2 LDD2)) r r); [|reflexivity].
    apply (gen_rows_ext ni na no); auto; try lia; intros a b Ha Hb; [apply (filled2_at _ _ _ _ _ _ _ _ AI)|apply (filled2_at _ _ _ _ _ _ _ _ AA)|apply (filled2_at _ _ _ _ _ _ _ _ AQ)]; auto. }
  unfold diagonal_hessian. rewrite !(filled2_at _ _ _ _ _ _ _ _ AI), !(filled2_at _ _ _ _ _ _ _ _ AA) by lia.
  unfold rotates in R. destruct (Nat.ltb_spec q ni).
  - destruct (Nat.ltb_spec p (ni + na)); [rewrite EF by lia|]; reflexivity.
  - rewrite EF by lia. reflexivity.
Qed.
Lemma precond_ok no ni na nv Fi LDFi Fa LDFa F LDF D LDD G K : let n := ni + na + nv in
  fits2 Fi LDFi n n -> fits2 Fa LDFa n n -> fits2 D LDD na na -> fits2 F LDF n n -> rot_size ni na nv <= length G -> rot_size ni na nv <= length K ->
  let dh := diagonal_hessian ni na (at2 Fi LDFi) (at2 Fa LDFa) (at2 F LDF) (at2 D LDD) in
  (forall p q, rotates ni na nv p q -> dh p q <> 0%Qc) ->
  exists K', precond_cg_orbital_step no ni na nv Fi LDFi Fa LDFa F LDF D LDD G K = Ok K' /\ length K' = length K /\
    (forall p q, rotates ni na nv p q -> nth (rot_index ni na nv p q) K' 0%Qc = (- nth (rot_index ni na nv p q) G 0 / dh p q)%Qc) /\
    (forall x, rot_size ni na nv <= x -> nth x K' 0%Qc = nth x K 0%Qc).
Proof.
  intros n HFi HFa HD HF HG HK dh Hd. unfold precond_cg_orbital_step. rewrite size_eq.
  destruct (diag_hessian_ok ni na nv Fi LDFi Fa LDFa D LDD F LDF (repeat 0%Qc (rot_size ni na nv))) as (H & -> & L & A & _); auto.
  { rewrite repeat_length. auto. } cbn [bind]. rewrite repeat_length in L.
  match goal with |- context [foldM _ ?f K] => destruct (fill1 (rot_size ni na nv) (fun x => - nth x G 0 / nth x H 0)%Qc f K) as (K' & -> & L' & A' & B') end; auto.
  { intros s x Hx. rewrite !(at_ok _ _ 0%Qc) by lia. cbn [bind]. unfold div_. destruct (Qc_eq_dec _ _) as [e|e]; auto.
    exfalso. destruct (rot_index_onto ni na nv x Hx) as (p & q & R & <-). rewrite A in e by auto. apply (Hd p q R). exact e. }
  exists K'. split; auto. split; auto. split; auto. intros p q R. rewrite A' by (apply rot_index_bound; auto). rewrite A by auto. reflexivity.
Qed.
