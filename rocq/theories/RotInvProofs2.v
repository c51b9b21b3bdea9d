(** Rotated determinants of all orbitals: operators act on them as on the original ones, they
    are orthonormal, and the Hamiltonian is the same operator in both sets of orbitals. *)
From Coq Require Import QArith Qcanon Permutation.
From Verif Require Import Base Bits BitsProofs SD Spec Sums FockSpec FockProofs HamProofs3 AsciContrib DenseSpec DenseProofs McscfSpec McscfProofs RotInvProofs.
Local Open Scope nat_scope.

Section ROT.
  Variables (W no : nat) (U : nat -> nat -> Qc).
  Hypothesis Hno : no <= W / 2.
  Hypothesis HU : orthogonal no U.
  Local Notation rop := (rop W no U).
  Local Notation pos := (pos W).
  Local Notation phix := (phix W no U).
  Local Notation mode_ok := (mode_ok no).
  Definition modes : list mode := map (pair false) (seq 0 no) ++ map (pair true) (seq 0 no).
  Definition phi (d : N) : vec := phix modes d e0.
  Lemma in_modes m : In m modes <-> mode_ok m.
  Proof.
    destruct m as [s p]. unfold modes, RotInvProofs.mode_ok. cbn. rewrite in_app_iff, !in_map_iff. split.
    - intros [(x & E & H)|(x & E & H)]; injection E as <- <-; apply in_seq in H; lia.
    - intros H. destruct s; [right|left]; exists p; (split; [reflexivity|apply in_seq; lia]).
  Qed.
  Lemma nodup_modes : NoDup modes.
  Proof.
    unfold modes.
    assert (X : forall s : bool, NoDup (map (pair s) (seq 0 no))) by (intros s; apply FinFun.Injective_map_NoDup; [intros a b E; injection E; auto|apply seq_NoDup]).
    pose proof (X false) as A. pose proof (X true) as B.
    assert (D : forall m : mode, In m (map (pair false) (seq 0 no)) -> ~ In m (map (pair true) (seq 0 no))).
    { intros m H1 H2. apply in_map_iff in H1, H2. destruct H1 as (x & <- & _), H2 as (y & E & _). discriminate E. }
    revert A D. generalize (map (pair false) (seq 0 no) : list mode). intros l. induction l as [|m r IH]; intros A D; [exact B|].
    inversion A as [|? ? A1 A2]; subst. cbn. constructor.
    - rewrite in_app_iff. intros [H|H]; [exact (A1 H)|exact (D m (or_introl eq_refl) H)].
    - apply IH; [exact A2|]. intros k Hk. apply D. right. exact Hk.
  Qed.
  Lemma split_modes (s : bool) (p : nat) : p < no -> modes = (if s then map (pair false) (seq 0 no) ++ map (pair true) (seq 0 p) else map (pair false) (seq 0 p)) ++ (s, p) ::
      (if s then map (pair true) (seq (S p) (no - S p)) else map (pair false) (seq (S p) (no - S p)) ++ map (pair true) (seq 0 no)).
  Proof.
    intros H. unfold modes. assert (E : seq 0 no = seq 0 p ++ p :: seq (S p) (no - S p)).
    { replace (seq 0 no) with (seq 0 (p + S (no - S p))) by (f_equal; lia). rewrite seq_app. reflexivity. }
    destruct s.
    - rewrite <- app_assoc. f_equal. rewrite E at 1. rewrite map_app. reflexivity.
    - rewrite E at 1. rewrite map_app. cbn [map]. rewrite <- app_assoc. reflexivity.
  Qed.
  Lemma filter_count d (s : bool) a k : filter (fun m => tb d (pos m)) (map (pair s) (seq a k)) = map (pair s) (filter (fun q => tb d (so W s q)) (seq a k)).
  Proof.
    revert a. induction k as [|k IH]; intros a; [reflexivity|]. cbn [seq map filter]. unfold RotInvProofs.pos at 1. cbn [fst snd]. destruct (tb d (so W s a)); cbn [map]; rewrite IH; reflexivity.
  Qed.
  Lemma filter_shift d h a k : length (filter (fun q => tb d (q + h)) (seq a k)) = length (filter (tb d) (seq (a + h) k)).
  Proof. revert a. induction k as [|k IH]; intros a; [reflexivity|]. cbn [seq filter]. destruct (tb d (a + h)); cbn [length]; rewrite IH; reflexivity. Qed.
  Lemma space_bits d i : in_space W no d -> tb d i = true -> i < no \/ (W / 2 <= i < W / 2 + no).
  Proof.
    intros [A B] H. destruct (Nat.lt_ge_cases i (W / 2)) as [L|L].
    - left. destruct (Nat.lt_ge_cases i no) as [C|C]; [exact C|]. exfalso. pose proof (tb_str W false d i (or_intror L)) as E. cbn in E. rewrite (A i C) in E. congruence.
    - right. split; [exact L|]. destruct (Nat.lt_ge_cases i (W / 2 + no)) as [C|C]; [exact C|]. exfalso.
      pose proof (tb_str W true d (i - W / 2) (or_introl eq_refl)) as E. unfold so in E. replace (i - W / 2 + W / 2) with i in E by lia. unfold str in E. rewrite (B (i - W / 2)) in E by lia. congruence.
  Qed.
  Lemma par_parity d (s : bool) (p : nat) : in_space W no d -> p < no ->
    par W d (if s then map (pair false) (seq 0 no) ++ map (pair true) (seq 0 p) else map (pair false) (seq 0 p)) = parity_below d (so W s p).
  Proof.
    intros Sp H. unfold par, parity_below, positions. f_equal. destruct s.
    - rewrite filter_app, app_length, !filter_count, !map_length. unfold so. rewrite (filter_shift d (W / 2) 0 p).
      replace (seq 0 (p + W / 2)) with (seq 0 (no + ((W / 2 - no) + p))) by (f_equal; lia). rewrite seq_app, seq_app, !filter_app, !app_length. cbn [Nat.add].
      replace (length (filter (tb d) (seq no (W / 2 - no)))) with 0.
      + rewrite Nat.add_0_l. replace (no + (W / 2 - no)) with (W / 2) by lia. f_equal.
      + symmetry. apply length_zero_iff_nil. destruct (filter (tb d) (seq no (W / 2 - no))) as [|x r] eqn:F; [reflexivity|]. exfalso.
        assert (X : In x (filter (tb d) (seq no (W / 2 - no)))) by (rewrite F; left; reflexivity). apply filter_In in X. destruct X as [X Y]. apply in_seq in X.
        destruct (space_bits d x Sp Y); lia.
    - rewrite filter_count, map_length. reflexivity.
  Qed.
  Lemma flip_space d m : mode_ok m -> in_space W no d -> in_space W no (flipb d (pos m)).
  Proof.
    intros Hm Sp. assert (X : forall s, wf no (str W s d)) by (intros s; apply HamProofs3.str_wf with (n := no) || (destruct s; [exact (proj2 Sp)|exact (proj1 Sp)]); try assumption; try lia).
    assert (Y : forall s, wf no (str W s (flipb d (pos m)))).
    { intros s. unfold RotInvProofs.pos. destruct m as [s' p]. unfold RotInvProofs.mode_ok in Hm. cbn [fst snd] in *. destruct (Bool.bool_dec s s') as [->|D].
      - rewrite str_flip by lia. apply wf_flip; [apply X|exact Hm].
      - replace s with (negb s') by (destruct s, s'; congruence || reflexivity). rewrite str_flip_other by lia. apply X. }
    split; [exact (Y false)|exact (Y true)].
  Qed.
  Definition op_of (c : bool) (m : mode) : op := if c then Cre (pos m) else Ann (pos m).
  Lemma act_of c m d : act (op_of c m) d = if Bool.eqb (tb d (pos m)) (negb c) then Some (parity_below d (pos m), flipb d (pos m)) else None.
  Proof.
    unfold op_of. destruct c, (tb d (pos m)) eqn:E; cbn [Bool.eqb negb].
    - cbn [act]. rewrite E. reflexivity.
    - apply act_cre, E.
    - apply act_ann, E.
    - cbn [act]. rewrite E. reflexivity.
  Qed.
  (** an operator acts on rotated determinants as on determinants *)
  Lemma rop_phi c m d t : mode_ok m -> in_space W no d ->
    rop c m (phi d) t = match act (op_of c m) d with Some (sg, d') => (sgn sg * phi d' t)%Qc | None => 0%Qc end.
  Proof.
    intros Hm Sp. rewrite act_of. destruct m as [s p]. pose proof Hm as Hp. unfold RotInvProofs.mode_ok in Hp. cbn in Hp.
    pose proof (split_modes s p Hp) as E. unfold phi. rewrite E.
    rewrite (on_det W no U Hno HU c (s, p)).
    - destruct (Bool.eqb (tb d (pos (s, p))) (negb c)); [|reflexivity]. f_equal. f_equal. exact (par_parity d s p Sp Hp).
    - pose proof nodup_modes as X. rewrite E in X. exact X.
    - intros k Hk. apply in_modes. rewrite E. exact Hk.
  Qed.
  Fixpoint rops (l : list (bool * mode)) (v : vec) : vec := match l with [] => v | (c, m) :: r => rop c m (rops r v) end.
  Definition ops_of (l : list (bool * mode)) : list op := map (fun x => op_of (fst x) (snd x)) l.
  Lemma rops_phi l d : (forall x, In x l -> mode_ok (snd x)) -> in_space W no d ->
    (forall t, rops l (phi d) t = match apply (ops_of l) d with Some (sg, d') => (sgn sg * phi d' t)%Qc | None => 0%Qc end) /\
    match apply (ops_of l) d with Some (_, d') => in_space W no d' | None => True end.
  Proof.
    intros H Sp. induction l as [|[c m] r IH]; [split; [intros t; cbn; ring|exact Sp]|].
    destruct IH as [E S']; [intros; apply H; right; assumption|]. assert (Hm : mode_ok m) by exact (H (c, m) (or_introl eq_refl)).
    cbn [rops ops_of map fst snd apply]. fold (ops_of r). destruct (apply (ops_of r) d) as [[sg d']|].
    - assert (A := act_of c m d'). split.
      + intros t. rewrite (rop_ext W no U c m _ (fun s => sgn sg * phi d' s)%Qc t E), rop_scale, (rop_phi c m d' t Hm S').
        destruct (act (op_of c m) d') as [[sg' d'']|]; [rewrite sgn_xorb; ring|ring].
      + rewrite A. destruct (Bool.eqb (tb d' (pos m)) (negb c)); [|exact Logic.I]. apply flip_space; assumption.
    - split; [|exact Logic.I]. intros t. apply rop_zero, E.
  Qed.

  (** ** inner products, over all states *)
  Definition states : list N := map N.of_nat (seq 0 (2 ^ (W / 2 + no))).
  Lemma pow_nat k : N.to_nat (2 ^ N.of_nat k) = 2 ^ k.
  Proof. rewrite N2Nat.inj_pow. rewrite Nat2N.id. reflexivity. Qed.
  Lemma in_states s : In s states <-> wf (W / 2 + no) s.
  Proof.
    unfold states. rewrite in_map_iff, wf_lt. rewrite <- (N2Nat.id (2 ^ N.of_nat (W / 2 + no))), pow_nat. split.
    - intros (k & <- & H). apply in_seq in H. lia.
    - intros H. exists (N.to_nat s). rewrite N2Nat.id. split; [reflexivity|]. apply in_seq. lia.
  Qed.
  Lemma nodup_states : NoDup states.
  Proof. unfold states. apply FinFun.Injective_map_NoDup; [intros a b E; apply Nat2N.inj, E|apply seq_NoDup]. Qed.
  Lemma flip_states P f : P < W / 2 + no -> sum states (fun s => f (flipb s P)) = sum states f.
  Proof.
    intros H. rewrite <- (sum_map (fun s => flipb s P) states f). apply sum_perm. apply NoDup_Permutation.
    - apply FinFun.Injective_map_NoDup; [|apply nodup_states]. intros a b E. rewrite <- (flip_flip a P), <- (flip_flip b P). f_equal. exact E.
    - apply nodup_states.
    - intros x. rewrite in_map_iff. split.
      + intros (y & <- & Hy). apply in_states in Hy. apply in_states. apply wf_flip; assumption.
      + intros Hx. exists (flipb x P). split; [apply flip_flip|]. apply in_states in Hx. apply in_states. apply wf_flip; assumption.
  Qed.
  Definition ip (v w : vec) : Qc := sum states (fun s => v s * w s)%Qc.
  Lemma ip_ext v v' w w' : (forall s, v s = v' s) -> (forall s, w s = w' s) -> ip v w = ip v' w'.
  Proof. intros A B. apply sum_ext. intros s _. rewrite A, B. reflexivity. Qed.
  Lemma ip_sym v w : ip v w = ip w v. Proof. apply sum_ext. intros. ring. Qed.
  Lemma ip_sum {A} (l : list A) k (f : A -> vec) v : ip v (fun s => sum l (fun a => k a * f a s))%Qc = sum l (fun a => k a * ip v (f a))%Qc.
  Proof.
    unfold ip. transitivity (sum states (fun s => sum l (fun a => k a * (v s * f a s))))%Qc.
    - apply sum_ext. intros s _. rewrite <- sum_scale. apply sum_ext. intros a _. ring.
    - rewrite sum_swap. apply sum_ext. intros a _. apply sum_scale.
  Qed.
  Lemma ip_zero v w : (forall s, w s = 0%Qc) -> ip v w = 0%Qc.
  Proof. intros H. apply sum_zero. intros s _. rewrite H. ring. Qed.
  Lemma ip_scale k v w : ip v (fun s => k * w s)%Qc = (k * ip v w)%Qc.
  Proof. unfold ip. rewrite <- sum_scale. apply sum_ext. intros. ring. Qed.
  Lemma adjoint1 P v w : P < W / 2 + no -> ip (opv true P v) w = ip v (opv false P w).
  Proof.
    intros H. unfold ip. rewrite <- (flip_states P (fun s => opv true P v s * w s)%Qc H). apply sum_ext. intros s _. unfold opv.
    rewrite tb_flip_same, flip_flip, parity_flip, Nat.ltb_irrefl, Bool.xorb_false_r. destruct (tb s P); cbn [Bool.eqb negb]; ring.
  Qed.
  Lemma adjoint m v w : mode_ok m -> ip (rop true m v) w = ip v (rop false m w).
  Proof.
    intros Hm. unfold rop, Sigma. rewrite ip_sym, !ip_sum. apply sum_ext. intros q Hq. apply in_seq in Hq. f_equal. rewrite ip_sym. apply adjoint1. unfold so. destruct (fst m); lia.
  Qed.
  Lemma ip_e0 : ip e0 e0 = 1%Qc.
  Proof.
    unfold ip. rewrite (sum_single states 0%N).
    - unfold e0. cbn. ring.
    - apply nodup_states.
    - apply in_states, wf_0.
    - intros b _ Hb. unfold e0. destruct (N.eqb_spec b 0); [congruence|ring].
  Qed.
  Lemma rop_back m l d s : mode_ok m -> (forall k, In k l -> mode_ok k /\ k <> m) -> rop false m (rop true m (phix l d e0)) s = phix l d e0 s.
  Proof.
    intros Hm H. pose proof (rop_car W no U Hno HU m m (phix l d e0) s Hm Hm) as X. rewrite (proj2 (mode_eqb_iff m m) eq_refl) in X.
    rewrite (rop_zero W no U true m (rop false m (phix l d e0)) s) in X by (intros; apply kill; assumption). rewrite <- X. ring.
  Qed.
  Lemma ortho_list l b d : NoDup l -> (forall k, In k l -> mode_ok k) ->
    ip (phix l b e0) (phix l d e0) = if forallb (fun m => Bool.eqb (tb b (pos m)) (tb d (pos m))) l then 1%Qc else 0%Qc.
  Proof.
    induction l as [|m r IH]; intros Nd Hk; [cbn; apply ip_e0|]. inversion Nd as [|? ? N1 N2]; subst.
    assert (Hm : mode_ok m) by (apply Hk; left; reflexivity).
    assert (Hr : forall k, In k r -> mode_ok k /\ k <> m) by (intros k H; split; [apply Hk; right; exact H|intros ->; exact (N1 H)]).
    assert (IH' := IH N2 (fun k H => proj1 (Hr k H))). cbn [RotInvProofs.phix forallb].
    destruct (tb b (pos m)), (tb d (pos m)); cbn [Bool.eqb andb].
    - rewrite adjoint by exact Hm. rewrite (ip_ext _ (phix r b e0) _ (phix r d e0)); [exact IH'|reflexivity|]. intros s. apply rop_back; assumption.
    - rewrite adjoint by exact Hm. apply ip_zero. intros s. apply kill; assumption.
    - rewrite ip_sym, adjoint by exact Hm. apply ip_zero. intros s. apply kill; assumption.
    - exact IH'.
  Qed.
  Lemma ortho b d : in_space W no b -> in_space W no d -> ip (phi b) (phi d) = if (d =? b)%N then 1%Qc else 0%Qc.
  Proof.
    intros Sb Sd. unfold phi. rewrite ortho_list; [|apply nodup_modes|intros k Hk; apply in_modes, Hk].
    assert (X : forallb (fun m => Bool.eqb (tb b (pos m)) (tb d (pos m))) modes = (d =? b)%N); [|rewrite X; reflexivity].
    destruct (N.eqb_spec d b) as [->|D].
    - apply forallb_forall. intros m _. apply Bool.eqb_reflx.
    - apply Bool.not_true_iff_false. intros F. apply D. apply tb_ext. intros i. rewrite forallb_forall in F.
      assert (G : forall x y, in_space W no x -> (forall m, In m modes -> tb x (pos m) = true -> tb y (pos m) = true) -> tb x i = true -> tb y i = true).
      { intros x y Sx Hxy Hi. destruct (space_bits x i Sx Hi) as [L|L].
        - apply (Hxy (false, i)); [apply in_modes; exact L|exact Hi].
        - specialize (Hxy (true, i - W / 2)). unfold RotInvProofs.pos, so in Hxy. cbn [fst snd] in Hxy. replace (i - W / 2 + W / 2) with i in Hxy by lia. apply Hxy; [|exact Hi].
          apply in_modes. unfold RotInvProofs.mode_ok. cbn [snd]. lia. }
      assert (E : forall m, In m modes -> tb b (pos m) = tb d (pos m)) by (intros m Hm; apply Bool.eqb_prop, F, Hm).
      destruct (tb d i) eqn:A, (tb b i) eqn:B; try reflexivity; exfalso.
      + rewrite (G d b Sd) in B; [discriminate B| |exact A]. intros m Hm H. rewrite E; assumption.
      + rewrite (G b d Sb) in A; [discriminate A| |exact B]. intros m Hm H. rewrite <- E; assumption.
  Qed.
End ROT.
