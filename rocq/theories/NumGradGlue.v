(** Glue for Props_NumGrad: numerical against analytic derivatives. *)
From Coq Require Import QArith Qcanon Qcabs Bool Lia.
From Verif Require Import Base Sums Ham HamProofs Asci Mem MemProofs Dense DenseSpec DenseProofs FockMatProofs RotProofs LinRespProofs HessProofs ExpandProofs SymProofs DenseGlue DenseEx ExpandUnique HessLinear Mcscf DiisProofs McscfProofs NumGrad NumGradSpec NumGradProofs NumGradAcc NumGradAcc2.
From Coq Require Import Qcabs.
Local Open Scope nat_scope.

Lemma unit_length N x : length (unit_vector N x) = N.
Proof. unfold unit_vector. rewrite map_length, seq_length. reflexivity. Qed.
Lemma unit_nth N x y : y < N -> nth y (unit_vector N x) 0%Qc = if y =? x then 1%Qc else 0%Qc.
Proof. intros H. unfold unit_vector. rewrite nth_map_seq by exact H. reflexivity. Qed.
Lemma rotates_lt ni na nv a i : rotates ni na nv a i -> i < a < ni + na + nv.
Proof. unfold rotates. lia. Qed.
Lemma unit_matrix ni na nv a i p q : rotates ni na nv a i ->
  rot_matrix ni na nv (unit_vector (rot_size ni na nv) (rot_index ni na nv a i)) p q = pair_rotation a i p q.
Proof.
  intros R. pose proof (rotates_lt _ _ _ _ _ R) as L. unfold rot_matrix, pair_rotation. destruct (rotatesb ni na nv p q) eqn:E1.
  - apply rotatesb_iff in E1. rewrite unit_nth by (apply rot_index_bound; exact E1). pose proof (rotates_lt _ _ _ _ _ E1).
    assert (Z : (p =? i) && (q =? a) = false) by (apply andb_false_iff; destruct (Nat.eqb_spec p i), (Nat.eqb_spec q a); auto; lia). rewrite Z.
    destruct (Nat.eqb_spec (rot_index ni na nv p q) (rot_index ni na nv a i)) as [E|E].
    + destruct (rot_index_inj _ _ _ _ _ _ _ E1 R E) as [-> ->]. rewrite !Nat.eqb_refl. reflexivity.
    + destruct (Nat.eqb_spec p a), (Nat.eqb_spec q i); try reflexivity. subst. contradiction.
  - destruct (rotatesb ni na nv q p) eqn:E2.
    + apply rotatesb_iff in E2. rewrite unit_nth by (apply rot_index_bound; exact E2). pose proof (rotates_lt _ _ _ _ _ E2).
      assert (Z : (p =? a) && (q =? i) = false) by (apply andb_false_iff; destruct (Nat.eqb_spec p a), (Nat.eqb_spec q i); auto; lia). rewrite Z.
      destruct (Nat.eqb_spec (rot_index ni na nv q p) (rot_index ni na nv a i)) as [E|E].
      * destruct (rot_index_inj _ _ _ _ _ _ _ E2 R E) as [-> ->]. rewrite !Nat.eqb_refl. reflexivity.
      * destruct (Nat.eqb_spec p i), (Nat.eqb_spec q a); cbn [andb]; try reflexivity. subst. contradiction.
    + apply rotatesb_not in E1, E2.
      assert (Z : (p =? a) && (q =? i) = false) by (apply andb_false_iff; destruct (Nat.eqb_spec p a), (Nat.eqb_spec q i); auto; subst; contradiction).
      assert (Z' : (p =? i) && (q =? a) = false) by (apply andb_false_iff; destruct (Nat.eqb_spec p i), (Nat.eqb_spec q a); auto; subst; contradiction).
      rewrite Z, Z'. reflexivity.
Qed.
Lemma rotation_family_ext n U U' K K' : (forall t p q, p < n -> q < n -> U t p q = U' t p q) -> (forall p q, p < n -> q < n -> K p q = K' p q) -> rotation_family n U K -> rotation_family n U' K'.
Proof.
  intros HU HK H i p Hi Hp. eapply expands_ext; [| | | |exact (H i p Hi Hp)].
  - intros t. apply HU; auto. - reflexivity. - rewrite HK by auto. reflexivity.
  - f_equal. apply product_ext; auto.
Qed.
Lemma dot_unit_l N x g : x < N -> dot N (unit_vector N x) g = nth x g 0%Qc.
Proof.
  intros H. unfold dot. rewrite (Sigma_ext_in N _ (fun y => (if y =? x then 1 else 0) * nth y g 0)%Qc).
  - apply (Sigma_delta N x (fun y => nth y g 0%Qc) H).
  - intros y Hy. rewrite unit_nth by exact Hy. reflexivity.
Qed.

Section ACC.
  Variables (expm : nat -> list Qc -> res (list Qc)) (no ni na nv : nat) (T V D : list Qc) (LDD1 : nat) (D2 : list Qc) (LDD2 : nat).
  Hypothesis En : no = ni + na + nv.
  Hypothesis H0 : 0 < no.
  Hypothesis H1 : 0 < LDD1.
  Hypothesis HT : fits2 T no no no.
  Hypothesis HV : fits4 V no no.
  Hypothesis HD : fits2 D LDD1 na na.
  Hypothesis HD2 : fits4 D2 LDD2 na.
  Hypothesis ST : symmetric2 no (at2 T no).
  Hypothesis SV : eightfold no (at4 V no).
  Hypothesis SD : symmetric2 na (at2 D LDD1).
  Hypothesis SD2 : fourfold na (at4 D2 LDD2).
  Notation E U := (energy_in no ni na (at2 T no) (at4 V no) (at2 D LDD1) (at4 D2 LDD2) U).
  (* the expansion of the energy along a family of rotations *)
  Lemma family_expansion (k : list Qc) (U : Qc -> list Qc) : rot_size ni na nv <= length k -> (forall t, fits2 (U t) no no no) ->
    rotation_family no (fun t => at2 (U t) no) (rot_matrix ni na nv k) ->
    exists F g h, generalized_fock_matrix_comp_mat2 no ni na T no V no D LDD1 D2 LDD2 (repeat 0%Qc (no * no)) no = Ok F /\
      pack_gradient ni na nv F no (repeat 0%Qc (rot_size ni na nv)) = Ok g /\
      orb_orb_hessian_contract no ni na nv T no V no D LDD1 D2 LDD2 g k (repeat 0%Qc (rot_size ni na nv)) = Ok h /\
      expands (fun t => E (at2 (U t) no)) (total_energy ni na (at2 T no) (at4 V no) (at2 D LDD1) (at4 D2 LDD2))
        (dot (rot_size ni na nv) k g) (half * dot (rot_size ni na nv) k h).
  Proof.
    intros Lk HU RF.
    destruct (energy_derivatives no ni na nv T V D LDD1 D2 LDD2 k (repeat 0%Qc (rot_size ni na nv)) U) as (F & g & h & e & EF & Eg & Eh & EE & _ & EX); auto.
    { rewrite repeat_length. auto. }
    exists F, g, h. split; [exact EF|]. split; [exact Eg|]. split; [exact Eh|]. eapply expands_ext; [|reflexivity|reflexivity|reflexivity|exact EX].
    intros t. specialize (EE t). rewrite rotated_energy'_ok in EE; auto using eight_pair; [|lia]. injection EE as <-. reflexivity.
  Qed.
  Lemma gradient_accuracy (X : nat -> nat -> Qc -> list Qc) OG LDOG : fits2 OG no no no ->
    (forall a i t, i < a < no -> expm no (packed no (fun p q => - t * pair_rotation a i p q)%Qc) = Ok (X a i t) /\ no * no <= length (X a i t)) ->
    (forall a i, rotates ni na nv a i -> rotation_family no (fun t => at2 (X a i t) no) (pair_rotation a i)) ->
    exists OG' F g, numerical_orbital_gradient expm no ni na T no V no D LDD1 D2 LDD2 OG LDOG = Ok OG' /\
      generalized_fock_matrix_comp_mat2 no ni na T no V no D LDD1 D2 LDD2 (repeat 0%Qc (no * no)) no = Ok F /\
      pack_gradient ni na nv F no (repeat 0%Qc (rot_size ni na nv)) = Ok g /\
      forall a i c0 c1 c2 c3 c4 M, rotates ni na nv a i -> quartic (fun t => E (at2 (X a i t) no)) c0 c1 c2 c3 c4 M ->
        (Qcabs (at2 OG' no a i - nth (rot_index ni na nv a i) g 0) <= Q2Qc (Qmake 1 150000000000) * M)%Qc.
  Proof.
    intros HOG HX RF.
    destruct (num_gradient_ok expm no ni na T no V D LDD1 D2 LDD2 H0 H1 ltac:(lia) HT HV HD HD2 (eight_pair _ _ SV) SD X OG LDOG HOG HX) as (OG' & EG & _ & VG & _).
    destruct (comp_mat2_zero no ni na T no V no D LDD1 D2 LDD2) as (F & EF & LF & AF); auto; [lia|].
    destruct (family_expansion (repeat 0%Qc (rot_size ni na nv)) (fun t => quadratic_family no (rot_matrix ni na nv (repeat 0%Qc (rot_size ni na nv))) t)) as (F' & g & _ & EF' & Eg & _ & _).
    { rewrite repeat_length. auto. } { apply quadratic_rotation. } { apply quadratic_rotation. }
    exists OG', F', g. split; [exact EG|]. split; [exact EF'|]. split; [exact Eg|].
    intros a i c0 c1 c2 c3 c4 M R HQ. rewrite (VG a i) by (rewrite En; apply rotates_lt in R; exact R).
    destruct (family_expansion (unit_vector (rot_size ni na nv) (rot_index ni na nv a i)) (fun t => X a i t)) as (F2 & g2 & h2 & EF2 & Eg2 & _ & EX).
    { rewrite unit_length. auto. }
    { intros t. apply fits2_packed_ge. apply HX. rewrite En. apply rotates_lt. exact R. }
    { eapply rotation_family_ext; [| |exact (RF a i R)]; [reflexivity|]. intros p q _ _. symmetry. apply unit_matrix. exact R. }
    assert (F2 = F') by congruence. subst F2. assert (g2 = g) by congruence. subst g2.
    destruct (expands_unique _ _ _ _ _ _ _ (quartic_expands _ _ _ _ _ _ _ HQ) EX) as (_ & Ec & _).
    rewrite dot_unit_l in Ec by (apply rot_index_bound; exact R). rewrite <- Ec.
    replace (Q2Qc (Qmake 1 150000000000) * M)%Qc with (Q2Qc (Qmake 20 3) * M * (dk * dk * dk * dk))%Qc.
    2: { replace (Q2Qc (Qmake 1 150000000000)) with (Q2Qc (Qmake 20 3) * (dk * dk * dk * dk))%Qc by (apply Qc_is_canon; vm_compute; reflexivity). ring. }
    apply (five_point_error dk _ c0 c1 c2 c3 c4 M); [reflexivity| |exact HQ]. vm_compute. discriminate.
  Qed.
  Lemma hessian_accuracy (X : nat -> nat -> nat -> nat -> Qc -> Qc -> list Qc) OH LDOH : fits4 OH LDOH no ->
    (forall a i b j x y, i < a < no -> i < b < no -> j < no ->
       expm no (packed no (fun p q => - (x * pair_rotation a i p q + y * pair_rotation b j p q))%Qc) = Ok (X a i b j x y) /\ no * no <= length (X a i b j x y)) ->
    (forall a i b j x y, rotates ni na nv a i -> rotates ni na nv b j -> i < b ->
       rotation_family no (fun t => at2 (X a i b j (t * x) (t * y))%Qc no) (fun p q => x * pair_rotation a i p q + y * pair_rotation b j p q)%Qc) ->
    exists OH' F g, numerical_orbital_hessian expm no ni na T no V no D LDD1 D2 LDD2 OH LDOH = Ok OH' /\
      generalized_fock_matrix_comp_mat2 no ni na T no V no D LDD1 D2 LDD2 (repeat 0%Qc (no * no)) no = Ok F /\
      pack_gradient ni na nv F no (repeat 0%Qc (rot_size ni na nv)) = Ok g /\
      forall a i b j c M, rotates ni na nv a i -> rotates ni na nv b j -> i < b ->
        quintic2 (fun x y => E (at2 (X a i b j x y) no)) c M ->
        let N := rot_size ni na nv in let ai := rot_index ni na nv a i in let bj := rot_index ni na nv b j in
        exists hai hbj, orb_orb_hessian_contract no ni na nv T no V no D LDD1 D2 LDD2 g (unit_vector N ai) (repeat 0%Qc N) = Ok hai /\
          orb_orb_hessian_contract no ni na nv T no V no D LDD1 D2 LDD2 g (unit_vector N bj) (repeat 0%Qc N) = Ok hbj /\
          (Qcabs (at4 OH' LDOH a i b j - half * (nth bj hai 0 + nth ai hbj 0)) <= Q2Qc (Qmake 1 31250000000) * M)%Qc.
  Proof.
    intros HOH HX RF.
    destruct (num_hessian_ok expm no ni na T no V D LDD1 D2 LDD2 H0 H1 ltac:(lia) HT HV HD HD2 (eight_pair _ _ SV) SD X OH LDOH HOH HX) as (OH' & EG & _ & VG & _).
    destruct (family_expansion (repeat 0%Qc (rot_size ni na nv)) (fun t => quadratic_family no (rot_matrix ni na nv (repeat 0%Qc (rot_size ni na nv))) t)) as (F & g & _ & EF & Eg & _ & _).
    { rewrite repeat_length. auto. } { apply quadratic_rotation. } { apply quadratic_rotation. }
    exists OH', F, g. split; [exact EG|]. split; [exact EF|]. split; [exact Eg|].
    intros a i b j c M R R' Hib HQ N ai bj.
    pose proof (rotates_lt _ _ _ _ _ R) as La. pose proof (rotates_lt _ _ _ _ _ R') as Lb. rewrite <- En in La, Lb.
    assert (Ba : ai < N) by (apply rot_index_bound; exact R). assert (Bb : bj < N) by (apply rot_index_bound; exact R').
    set (ks := map (fun z => 1 * nth z (unit_vector N ai) 0 + 1 * nth z (unit_vector N bj) 0)%Qc (seq 0 N)).
    assert (Lks : length ks = N) by (unfold ks; rewrite map_length, seq_length; reflexivity).
    assert (Nks : forall z, z < N -> nth z ks 0%Qc = (1 * nth z (unit_vector N ai) 0 + 1 * nth z (unit_vector N bj) 0)%Qc) by (intros z Hz; unfold ks; rewrite nth_map_seq by exact Hz; reflexivity).
    assert (Fam : forall (x y : Qc) (k : list Qc), (Qcabs x <= 1)%Qc -> (Qcabs y <= 1)%Qc -> length k = N -> (forall z, z < N -> nth z k 0%Qc = (x * nth z (unit_vector N ai) 0 + y * nth z (unit_vector N bj) 0)%Qc) ->
      exists h, orb_orb_hessian_contract no ni na nv T no V no D LDD1 D2 LDD2 g k (repeat 0%Qc N) = Ok h /\
        (half * dot N k h = c 2%nat 0%nat * (x * x) + c 1%nat 1%nat * (x * y) + c 0%nat 2%nat * (y * y))%Qc).
    { intros x y k Hx Hy Lk Hk.
      destruct (family_expansion k (fun t => X a i b j (t * x)%Qc (t * y)%Qc)) as (F2 & g2 & h & EF2 & Eg2 & Eh & EX).
      - fold N. lia.
      - intros t. apply fits2_packed_ge. apply HX; lia.
      - eapply rotation_family_ext; [| |exact (RF a i b j x y R R' Hib)]; [reflexivity|]. intros p q _ _. cbv beta. rewrite (rot_matrix_lin ni na nv x y k _ _ p q Hk).
        unfold N, ai, bj. rewrite !unit_matrix by assumption. reflexivity.
      - assert (F2 = F) by congruence. subst F2. assert (g2 = g) by congruence. subst g2. exists h. split; [exact Eh|].
        destruct (expands_unique _ _ _ _ _ _ _ (quintic2_expands _ c M x y HQ Hx Hy) EX) as (_ & _ & Ec). symmetry. exact Ec. }
    assert (Q0 : (Qcabs 0 <= 1)%Qc) by (vm_compute; discriminate). assert (Q1 : (Qcabs 1 <= 1)%Qc) by (vm_compute; discriminate).
    destruct (Fam 1%Qc 0%Qc (unit_vector N ai)) as (hx & Ex & Vx); auto using unit_length. { intros; ring. }
    destruct (Fam 0%Qc 1%Qc (unit_vector N bj)) as (hy & Ey & Vy); auto using unit_length. { intros; ring. }
    destruct (Fam 1%Qc 1%Qc ks) as (hs & Es & Vs); auto.
    assert (Lg : N <= length g). { pose proof (pack_gradient_ok ni na nv F no (repeat 0%Qc N)) as PG.
      destruct (comp_mat2_zero no ni na T no V no D LDD1 D2 LDD2) as (F0 & EF0 & LF0 & _); auto; [lia|]. assert (F0 = F) by congruence. subst F0.
      destruct PG as (g0 & Eg0 & Lg0 & _). { rewrite repeat_length. auto. } { rewrite <- En. apply fits2_packed. exact LF0. }
      assert (g0 = g) by (fold N in Eg; congruence). subst g0. rewrite Lg0, repeat_length. auto. }
    exists hx, hy. split; [exact Ex|]. split; [exact Ey|]. 
    destruct (hessian_linear no ni na nv T V no D LDD1 D2 LDD2 g 1%Qc 1%Qc ks (unit_vector N ai) (unit_vector N bj) (repeat 0%Qc N) (repeat 0%Qc N) (repeat 0%Qc N)) as (h1 & h2 & h3 & E1 & E2 & E3 & HL);
      rewrite ?repeat_length, ?unit_length; fold N; auto; try lia.
    assert (h1 = hs) by congruence. assert (h2 = hx) by congruence. assert (h3 = hy) by congruence. subst h1 h2 h3.
    rewrite (VG a i b j) by lia.
    assert (Ec : c 1%nat 1%nat = (half * (nth bj hx 0 + nth ai hy 0))%Qc).
    { rewrite dot_unit_l in Vx, Vy by assumption.
      assert (Ds : dot N ks hs = (nth ai hx 0 + nth ai hy 0 + nth bj hx 0 + nth bj hy 0)%Qc).
      { unfold dot. rewrite (Sigma_lin N 1%Qc 1%Qc _ (fun z => nth z (unit_vector N ai) 0 * nth z hs 0)%Qc (fun z => nth z (unit_vector N bj) 0 * nth z hs 0)%Qc).
        - change (1 * dot N (unit_vector N ai) hs + 1 * dot N (unit_vector N bj) hs = nth ai hx 0 + nth ai hy 0 + nth bj hx 0 + nth bj hy 0)%Qc.
          rewrite !dot_unit_l by assumption. rewrite !HL by assumption. ring.
        - intros z Hz. rewrite Nks by exact Hz. ring. }
      rewrite Ds in Vs. assert (Z : (c 1%nat 1%nat = half * (nth ai hx 0 + nth ai hy 0 + nth bj hx 0 + nth bj hy 0) - half * nth ai hx 0 - half * nth bj hy 0)%Qc).
      { rewrite Vs, Vx, Vy. ring. } rewrite Z. ring. }
    rewrite <- Ec.
    replace (Q2Qc (Qmake 1 31250000000) * M)%Qc with (inject 32 * M * (dk * dk * dk * dk))%Qc.
    2: { replace (Q2Qc (Qmake 1 31250000000)) with (inject 32 * (dk * dk * dk * dk))%Qc by (apply Qc_is_canon; vm_compute; reflexivity). ring. }
    apply mixed_error; [reflexivity| |exact HQ]. vm_compute. discriminate.
  Qed.
End ACC.
