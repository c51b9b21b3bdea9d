(** Glue lemmas and examples for Props_Ham.v. *)
From Coq Require Import QArith Qcanon Sorting.Permutation Sorting.Sorted.
From Verif Require Import Base Bits BitsProofs SD Spec SDProofs SDProofs2 SDProofs3 SDProofs4 SDProofs5 Sums
  FockSpec FockProofs SlaterCondon Ham SparseSpec CsrView Dist
  HamProofs HamProofs2 HamProofs3 HamProofs4 HamProofs5 HamProofs6 HamProofs7 HamProofs8 CsrProofs DistProofs.
Local Open Scope nat_scope.

(** ** examples *)
Definition ex_ints : ints := mk_ints 4 (fun p q => inject (p + q + 1))
  (fun p q r s => inject ((p + q + 1) * (r + s + 1))).
Definition ex_wfn : list (N * Qc) :=
  [((1 + 2 ^ 32)%N, Q2Qc (3 # 5)); ((2 + 2 ^ 33)%N, Q2Qc (4 # 5))].

Definition qz (x : Qc) : bool := Qc_eq_bool x 0.
Lemma qz_true x : qz x = false -> x <> 0%Qc.
Proof. intros H E. subst. unfold qz, Qc_eq_bool in H. destruct (Qc_eq_dec 0 0); congruence. Qed.
Definition okb {A} (r : res A) (f : A -> bool) : bool := match r with Ok x => f x | Err _ => false end.
Lemma okb_ok {A} (r : res A) f : okb r f = true -> exists x, r = Ok x /\ f x = true.
Proof. destruct r; cbn; intros H; [eauto|discriminate]. Qed.
Definition nz (x : Qc) : bool := negb (qz x).
Lemma nz_ok x : nz x = true -> x <> 0%Qc.
Proof. intros H. apply qz_true. unfold nz in H. destruct (qz x); [discriminate|reflexivity]. Qed.

Ltac sz := apply size_is_count; vm_compute; reflexivity.
Ltac wfc := apply wf_lt; vm_compute; reflexivity.
Ltac spc := split; wfc.
Ltac mv := split; sz.

Lemma c11_ex : moves 1 11 26 /\
  single_excitation_sign_indices 8 26 11 (N.lxor 26 11) = Ok (0, 4, false) /\
  moves 1 3 6 /\ single_excitation_sign_indices 8 6 3 (N.lxor 6 3) = Ok (0, 2, true).
Proof. split; [mv|]. split; [vm_compute; reflexivity|]. split; [mv|vm_compute; reflexivity]. Qed.
Lemma c12_ex : moves 2 7 26 /\
  doubles_sign_indices 8 26 7 (N.lxor 26 7) = Ok (0, 3, 2, 4, true).
Proof. split; [mv|vm_compute; reflexivity]. Qed.
Lemma c12_mixed_ex :
  spin_width 64 /\ wf 64 (3 + 3 * 2 ^ 32) /\ wf 64 (6 + 5 * 2 ^ 32) /\
  moves 1 (alpha 64 (3 + 3 * 2 ^ 32)) (alpha 64 (6 + 5 * 2 ^ 32)) /\
  moves 1 (beta 64 (3 + 3 * 2 ^ 32)) (beta 64 (6 + 5 * 2 ^ 32)).
Proof. split; [left; auto|]. split; [wfc|]. split; [wfc|]. split; mv. Qed.

Lemma c13 W h bra ket na nb :
  spin_width W -> norb h <= W / 2 ->
  (forall p q r s, p < norb h -> q < norb h -> r < norb h -> s < norb h ->
     V_pqrs h p q r s = V_pqrs h r s p q) ->
  in_space W (norb h) bra -> in_space W (norb h) ket ->
  size_is (alpha W bra) na -> size_is (alpha W ket) na ->
  size_is (beta W bra) nb -> size_is (beta W ket) nb ->
  matrix_element W h bra ket = Ok (ham W (norb h) (T_pq h) (V_pqrs h) bra ket).
Proof. intros HW Hn Vs B K A1 A2 B1 B2. exact (matrix_element_ok W HW h Hn Vs bra ket B K na nb A1 A2 B1 B2). Qed.
Lemma c13_ex :
  in_space 64 4 (3 + 5 * 2 ^ 32) /\ in_space 64 4 (6 + 3 * 2 ^ 32) /\
  size_is (alpha 64 (3 + 5 * 2 ^ 32)) 2 /\ size_is (alpha 64 (6 + 3 * 2 ^ 32)) 2 /\
  size_is (beta 64 (3 + 5 * 2 ^ 32)) 2 /\ size_is (beta 64 (6 + 3 * 2 ^ 32)) 2 /\
  exists x, matrix_element 64 ex_ints (3 + 5 * 2 ^ 32) (6 + 3 * 2 ^ 32) = Ok x /\ x <> 0%Qc.
Proof.
  split; [spc|]. split; [spc|]. split; [sz|]. split; [sz|]. split; [sz|]. split; [sz|].
  destruct (okb_ok (matrix_element 64 ex_ints (3 + 5 * 2 ^ 32) (6 + 3 * 2 ^ 32)) nz) as (x & E & Z).
  - vm_compute. reflexivity.
  - exists x. split; auto. apply nz_ok, Z.
Qed.

Lemma c14 W h bra ket na nb :
  spin_width W -> norb h <= W / 2 ->
  (forall p q, p < norb h -> q < norb h -> T_pq h p q = T_pq h q p) ->
  (forall p q r s, p < norb h -> q < norb h -> r < norb h -> s < norb h ->
     V_pqrs h p q r s = V_pqrs h r s p q /\ V_pqrs h p q r s = V_pqrs h q p s r) ->
  in_space W (norb h) bra -> in_space W (norb h) ket ->
  size_is (alpha W bra) na -> size_is (alpha W ket) na ->
  size_is (beta W bra) nb -> size_is (beta W ket) nb ->
  exists x, matrix_element W h bra ket = Ok x /\ matrix_element W h ket bra = Ok x.
Proof.
  intros HW Hn Ts Vs B K A1 A2 B1 B2.
  exists (ham W (norb h) (T_pq h) (V_pqrs h) bra ket). split.
  - apply c13 with (na := na) (nb := nb); auto. intros. apply Vs; auto.
  - rewrite (ham_sym W (norb h) (T_pq h) (V_pqrs h) bra ket); auto.
    + apply c13 with (na := na) (nb := nb); auto. intros. apply Vs; auto.
    + intros. apply Vs; auto.
Qed.
Lemma c14_ex :
  (forall p q, T_pq ex_ints p q = T_pq ex_ints q p) /\
  (forall p q r s, V_pqrs ex_ints p q r s = V_pqrs ex_ints r s p q /\
                   V_pqrs ex_ints p q r s = V_pqrs ex_ints q p s r) /\
  (exists x, matrix_element 64 ex_ints (3 + 2 ^ 32) (6 + 2 ^ 32) = Ok x /\ x <> 0%Qc /\
             matrix_element 64 ex_ints (6 + 2 ^ 32) (3 + 2 ^ 32) = Ok x).
Proof.
  assert (TS : forall p q, T_pq ex_ints p q = T_pq ex_ints q p).
  { intros. cbn. f_equal. lia. }
  assert (VS : forall p q r s, V_pqrs ex_ints p q r s = V_pqrs ex_ints r s p q /\
                   V_pqrs ex_ints p q r s = V_pqrs ex_ints q p s r).
  { intros. cbn. split; f_equal; lia. }
  split; auto. split; auto.
  destruct (okb_ok (matrix_element 64 ex_ints (3 + 2 ^ 32) (6 + 2 ^ 32)) nz) as (x & E & Z).
  - vm_compute. reflexivity.
  - exists x. split; auto. split; [apply nz_ok, Z|].
    assert (K : exists y, matrix_element 64 ex_ints (3 + 2 ^ 32) (6 + 2 ^ 32) = Ok y /\
                          matrix_element 64 ex_ints (6 + 2 ^ 32) (3 + 2 ^ 32) = Ok y).
    { apply c14 with (na := 2) (nb := 1); [left; auto|cbn; lia|auto|auto|spc|spc|sz|sz|sz|sz]. }
    destruct K as (y & E1 & E2). congruence.
Qed.

Lemma c15_ex : size_is (N.lxor 7 56) 6 /\ matrix_element 64 ex_ints 7 56 = Ok 0%Qc.
Proof. split; [sz|]. apply me_far with (k := 6); [left; auto|wfc|wfc|sz|lia]. Qed.
Lemma alpha_xor W a b : alpha W (N.lxor a b) = N.lxor (alpha W a) (alpha W b).
Proof. apply tb_ext. intros i. unfold alpha. rewrite tb_xor, !tb_mod, tb_xor. destruct (i <? W / 2); auto. Qed.
Lemma beta_xor W a b : beta W (N.lxor a b) = N.lxor (beta W a) (beta W b).
Proof. apply tb_ext. intros i. unfold beta. rewrite tb_xor, !tb_div, tb_xor. auto. Qed.
Lemma c15_moves W h bra ket k :
  spin_width W -> wf W bra -> wf W ket ->
  spin_moves W k ket bra -> 3 <= k -> matrix_element W h bra ket = Ok 0%Qc.
Proof.
  intros HW B K (ka & kb & Ek & Ma & Mb) Hk. apply me_far with (k := 2 * k); auto; [|lia].
  apply size_is_count. rewrite (count_split W); [|auto|apply wf_xor; auto].
  apply count_xor_moves in Ma, Mb.
  rewrite alpha_xor, beta_xor, Ma, Mb. lia.
Qed.
Lemma c15_flip :
  exists W h bra ket, spin_width W /\ norb h <= W / 2 /\
    in_space W (norb h) bra /\ in_space W (norb h) ket /\
    size_is (alpha W bra) 1 /\ size_is (beta W bra) 0 /\
    size_is (alpha W ket) 0 /\ size_is (beta W ket) 1 /\
    ham W (norb h) (T_pq h) (V_pqrs h) bra ket = 0%Qc /\
    exists x, matrix_element W h bra ket = Ok x /\ x <> 0%Qc.
Proof.
  exists 64, ex_ints, 1%N, (2 ^ 32)%N. split; [left; auto|]. split; [cbn; lia|].
  split; [spc|]. split; [spc|]. split; [sz|]. split; [sz|]. split; [sz|]. split; [sz|]. split.
  - assert (X : qz (ham 64 4 (T_pq ex_ints) (V_pqrs ex_ints) 1 (2 ^ 32)) = true) by (vm_compute; reflexivity).
    unfold qz, Qc_eq_bool in X. destruct (Qc_eq_dec _ _) as [E|]; [exact E|discriminate].
  - destruct (okb_ok (matrix_element 64 ex_ints 1 (2 ^ 32)) nz) as (x & E & Z).
    + vm_compute. reflexivity.
    + exists x. split; auto. apply nz_ok, Z.
Qed.
Lemma c15_pair :
  exists W h bra ket, spin_width W /\ norb h <= W / 2 /\
    in_space W (norb h) bra /\ in_space W (norb h) ket /\
    size_is (alpha W bra) 3 /\ size_is (alpha W ket) 1 /\
    beta W bra = beta W ket /\ matrix_element W h bra ket = Err UB.
Proof.
  exists 64, ex_ints, 7%N, 1%N. split; [left; auto|]. split; [cbn; lia|].
  split; [spc|]. split; [spc|]. split; [sz|]. split; [sz|]. split; vm_compute; reflexivity.
Qed.

(** ** C16 *)
Lemma tb_setbit x p k : tb (N.setbit x (N.of_nat p)) k = (k =? p) || tb x k.
Proof.
  unfold tb. destruct (Nat.eqb_spec k p) as [->|H].
  - apply N.setbit_eq.
  - apply N.setbit_neq. intros E. apply Nat2N.inj in E. congruence.
Qed.
Lemma tb_clearbit x p k : tb (N.clearbit x (N.of_nat p)) k = negb (k =? p) && tb x k.
Proof.
  unfold tb. destruct (Nat.eqb_spec k p) as [->|H].
  - apply N.clearbit_eq.
  - apply N.clearbit_neq. intros E. apply Nat2N.inj in E. congruence.
Qed.
Lemma tb_moved W D s o p k : o < W / 2 -> p < W / 2 -> tb (str W s D) o = true -> tb (str W s D) p = false ->
  tb (moved W D s o p) k = xorb (xorb (tb D k) (k =? so W s o)) (k =? so W s p).
Proof.
  intros Ho Hp To Tp. unfold moved. rewrite tb_setbit, tb_clearbit.
  rewrite <- tb_str in To, Tp by auto.
  destruct (Nat.eqb_spec k (so W s p)) as [Ep|Ep].
  - assert (X : (k =? so W s o) = false) by (apply Nat.eqb_neq; congruence).
    rewrite X, Ep, Tp. reflexivity.
  - destruct (Nat.eqb_spec k (so W s o)) as [Eo|Eo]; cbn.
    + rewrite Eo, To. reflexivity.
    + destruct (tb D k); reflexivity.
Qed.
Lemma str_moved W D s t o p k : o < W / 2 -> p < W / 2 -> k < W / 2 ->
  tb (str W s D) o = true -> tb (str W s D) p = false ->
  tb (str W t (moved W D s o p)) k =
  if Bool.eqb s t then xorb (xorb (tb (str W t D) k) (k =? o)) (k =? p) else tb (str W t D) k.
Proof.
  intros Ho Hp Hk To Tp. rewrite <- !tb_str by auto. rewrite tb_moved by auto.
  rewrite !so_eqb by auto. destruct s, t; cbn; rewrite ?xorb_false_r; auto.
Qed.
Lemma moved_space W n D s o p : n <= W / 2 -> in_space W n D -> o < n -> p < n ->
  tb (str W s D) o = true -> tb (str W s D) p = false -> in_space W n (moved W D s o p).
Proof.
  intros Hn [A B] Ho Hp To Tp.
  assert (K : forall t k, n <= k -> (t = true \/ k < W / 2) -> tb (str W t (moved W D s o p)) k = false).
  { intros t k Hk Ht. rewrite <- tb_str by auto. rewrite tb_moved by (auto; lia).
    rewrite tb_str by auto. rewrite !so_eqb by (auto; lia).
    assert (X : tb (str W t D) k = false) by (destruct t; cbn; auto). rewrite X.
    destruct (Nat.eqb_spec k o); [lia|]. destruct (Nat.eqb_spec k p); [lia|].
    rewrite !andb_false_r. reflexivity. }
  split; intros k Hk.
  - destruct (Nat.ltb_spec k (W / 2)) as [L|L].
    + exact (K false k Hk (or_intror L)).
    + unfold alpha. rewrite tb_mod. destruct (Nat.ltb_spec k (W / 2)); [lia|auto].
  - exact (K true k Hk (or_introl eq_refl)).
Qed.

Section C16.
  Variables (W : nat) (h : ints).
  Hypothesis Hn : norb h <= W / 2.
  Hypothesis Vs : forall p q r s, p < norb h -> q < norb h -> r < norb h -> s < norb h ->
     V_pqrs h p q r s = V_pqrs h r s p q.
  Lemma c16_single' D s o p : in_space W (norb h) D -> o < norb h -> p < norb h ->
    tb (str W s D) o = true -> tb (str W s D) p = false ->
    let E X := ham W (norb h) (T_pq h) (V_pqrs h) X X in
    fast_diag_single h (positions (norb h) (str W s D)) (positions (norb h) (str W (negb s) D)) o p (E D)
    = Ok (E (moved W D s o p)).
  Proof.
    intros G Ho Hp To Tp. apply (fast_single W h Hn Vs); auto.
    - apply moved_space; auto.
    - intros k. apply tb_moved; auto; lia.
  Qed.
  Lemma c16_ss' D s o1 o2 p1 p2 :
    in_space W (norb h) D -> o1 < norb h -> o2 < norb h -> p1 < norb h -> p2 < norb h ->
    o1 <> o2 -> p1 <> p2 ->
    tb (str W s D) o1 = true -> tb (str W s D) o2 = true ->
    tb (str W s D) p1 = false -> tb (str W s D) p2 = false ->
    let E X := ham W (norb h) (T_pq h) (V_pqrs h) X X in
    fast_diag_ss_double h (positions (norb h) (str W s D)) (positions (norb h) (str W (negb s) D))
      o1 o2 p1 p2 (E D)
    = Ok (E (moved W (moved W D s o1 p1) s o2 p2)).
  Proof.
    intros G Ho1 Ho2 Hp1 Hp2 No Np To1 To2 Tp1 Tp2.
    assert (A : tb (str W s (moved W D s o1 p1)) o2 = true).
    { rewrite str_moved by (auto; lia). rewrite Bool.eqb_reflx, To2.
      destruct (Nat.eqb_spec o2 o1); [congruence|]. destruct (Nat.eqb_spec o2 p1); [congruence|]. reflexivity. }
    assert (B : tb (str W s (moved W D s o1 p1)) p2 = false).
    { rewrite str_moved by (auto; lia). rewrite Bool.eqb_reflx, Tp2.
      destruct (Nat.eqb_spec p2 o1); [congruence|]. destruct (Nat.eqb_spec p2 p1); [congruence|]. reflexivity. }
    apply (fast_ss W h Hn Vs); auto.
    - apply moved_space; auto. apply moved_space; auto.
    - intros k. rewrite tb_moved by (auto; lia). rewrite tb_moved by (auto; lia).
      destruct (tb D k), (k =? so W s o1), (k =? so W s o2), (k =? so W s p1), (k =? so W s p2); reflexivity.
  Qed.
  Lemma c16_os' D s o1 o2 p1 p2 :
    in_space W (norb h) D -> o1 < norb h -> o2 < norb h -> p1 < norb h -> p2 < norb h ->
    tb (str W s D) o1 = true -> tb (str W (negb s) D) o2 = true ->
    tb (str W s D) p1 = false -> tb (str W (negb s) D) p2 = false ->
    let E X := ham W (norb h) (T_pq h) (V_pqrs h) X X in
    fast_diag_os_double h (positions (norb h) (str W s D)) (positions (norb h) (str W (negb s) D))
      o1 o2 p1 p2 (E D)
    = Ok (E (moved W (moved W D s o1 p1) (negb s) o2 p2)).
  Proof.
    intros G Ho1 Ho2 Hp1 Hp2 To1 To2 Tp1 Tp2.
    assert (Q : Bool.eqb s (negb s) = false) by (destruct s; reflexivity).
    assert (A : tb (str W (negb s) (moved W D s o1 p1)) o2 = true).
    { rewrite str_moved by (auto; lia). rewrite Q. auto. }
    assert (B : tb (str W (negb s) (moved W D s o1 p1)) p2 = false).
    { rewrite str_moved by (auto; lia). rewrite Q. auto. }
    apply (fast_os W h Hn Vs); auto.
    - apply moved_space; auto. apply moved_space; auto.
    - intros k. rewrite tb_moved by (auto; lia). rewrite tb_moved by (auto; lia).
      destruct (tb D k), (k =? so W s o1), (k =? so W (negb s) o2), (k =? so W s p1), (k =? so W (negb s) p2); reflexivity.
  Qed.
End C16.

Lemma c16_single W h D s o p :
  spin_width W -> norb h <= W / 2 ->
  (forall p q r s, p < norb h -> q < norb h -> r < norb h -> s < norb h ->
     V_pqrs h p q r s = V_pqrs h r s p q) ->
  in_space W (norb h) D -> o < norb h -> p < norb h ->
  tb (str W s D) o = true -> tb (str W s D) p = false ->
  let E X := ham W (norb h) (T_pq h) (V_pqrs h) X X in
  fast_diag_single h (positions (norb h) (str W s D)) (positions (norb h) (str W (negb s) D)) o p (E D)
  = Ok (E (moved W D s o p)).
Proof. intros HW Hn Vs. exact (c16_single' W h Hn Vs D s o p). Qed.
Lemma c16_ss W h D s o1 o2 p1 p2 :
  spin_width W -> norb h <= W / 2 ->
  (forall p q r s, p < norb h -> q < norb h -> r < norb h -> s < norb h ->
     V_pqrs h p q r s = V_pqrs h r s p q) ->
  in_space W (norb h) D -> o1 < norb h -> o2 < norb h -> p1 < norb h -> p2 < norb h ->
  o1 <> o2 -> p1 <> p2 ->
  tb (str W s D) o1 = true -> tb (str W s D) o2 = true ->
  tb (str W s D) p1 = false -> tb (str W s D) p2 = false ->
  let E X := ham W (norb h) (T_pq h) (V_pqrs h) X X in
  fast_diag_ss_double h (positions (norb h) (str W s D)) (positions (norb h) (str W (negb s) D))
    o1 o2 p1 p2 (E D)
  = Ok (E (moved W (moved W D s o1 p1) s o2 p2)).
Proof. intros HW Hn Vs. exact (c16_ss' W h Hn Vs D s o1 o2 p1 p2). Qed.
Lemma c16_os W h D s o1 o2 p1 p2 :
  spin_width W -> norb h <= W / 2 ->
  (forall p q r s, p < norb h -> q < norb h -> r < norb h -> s < norb h ->
     V_pqrs h p q r s = V_pqrs h r s p q) ->
  in_space W (norb h) D -> o1 < norb h -> o2 < norb h -> p1 < norb h -> p2 < norb h ->
  tb (str W s D) o1 = true -> tb (str W (negb s) D) o2 = true ->
  tb (str W s D) p1 = false -> tb (str W (negb s) D) p2 = false ->
  let E X := ham W (norb h) (T_pq h) (V_pqrs h) X X in
  fast_diag_os_double h (positions (norb h) (str W s D)) (positions (norb h) (str W (negb s) D))
    o1 o2 p1 p2 (E D)
  = Ok (E (moved W (moved W D s o1 p1) (negb s) o2 p2)).
Proof. intros HW Hn Vs. exact (c16_os' W h Hn Vs D s o1 o2 p1 p2). Qed.

Lemma mapM_inv {A B} (f : A -> res B) (d : A) (e : B) l : forall r, mapM f l = Ok r ->
  length r = length l /\ forall i, i < length l -> f (nth i l d) = Ok (nth i r e).
Proof.
  induction l as [|a l IH]; cbn [mapM]; intros r H.
  - injection H as <-. split; auto. cbn. intros; lia.
  - destruct (f a) as [b|] eqn:E; [|discriminate]. cbn [bind] in H.
    destruct (mapM f l) as [bs|] eqn:E2; [|discriminate]. cbn [bind] in H. injection H as <-.
    destruct (IH bs eq_refl) as [L N]. split; [cbn; lia|]. intros [|i] Hi; cbn in *; auto. apply N. lia.
Qed.
Lemma c16_ens h n ss os ens :
  single_orbital_ens h n ss os = Ok ens -> length ens = n /\
  forall i, i < n -> single_orbital_en h i ss os = Ok (nth i ens 0%Qc).
Proof.
  unfold single_orbital_ens. intros H. apply (mapM_inv _ 0 0%Qc) in H. rewrite seq_length in H.
  destruct H as [L N]. split; auto. intros i Hi. specialize (N i Hi). rewrite seq_nth in N by auto. exact N.
Qed.
Lemma c16_ex : in_space 64 4 (3 + 5 * 2 ^ 32) /\
  exists x y, fast_diag_single ex_ints [0;1] [0;2] 1 3 x = Ok y /\ y <> x /\
    x = ham 64 4 (T_pq ex_ints) (V_pqrs ex_ints) (3 + 5 * 2 ^ 32) (3 + 5 * 2 ^ 32).
Proof.
  split; [spc|]. set (x := ham _ _ _ _ _ _).
  assert (K : okb (fast_diag_single ex_ints [0;1] [0;2] 1 3 0%Qc) nz = true) by (vm_compute; reflexivity).
  apply okb_ok in K. destruct K as (d & Ed & Zd). apply nz_ok in Zd.
  assert (S : forall z, fast_diag_single ex_ints [0;1] [0;2] 1 3 z = Ok (z + d)%Qc).
  { intros z. unfold fast_diag_single, fast_diag_single_en in *.
    destruct (single_orbital_en ex_ints 1 [0;1] [0;2]) as [a|]; [|discriminate].
    destruct (single_orbital_en ex_ints 3 [0;1] [0;2]) as [b|]; [|discriminate].
    cbn [bind] in *. destruct (G2_at ex_ints 3 1) as [u|]; [|discriminate].
    destruct (G2_at ex_ints 1 3) as [v|]; [|discriminate]. cbn [bind] in *.
    injection Ed as <-. f_equal. ring. }
  exists x, (x + d)%Qc. split; [apply S|]. split; auto.
  intros E. apply Zd. transitivity (x + d - x)%Qc; [ring|]. rewrite E. ring.
Qed.

(** ** C17 *)
Lemma spec_row_In' W h thr b kets : forall j0 c v,
  In (c, v) (spec_row W h thr b j0 kets) <->
  exists j, c = j0 + j /\ j < length kets /\
    v = ham W (norb h) (T_pq h) (V_pqrs h) b (nth j kets 0%N) /\ stored thr b (nth j kets 0%N) v = true.
Proof.
  induction kets as [|k kets IH]; intros j0 c v.
  - split; [intros []|]. intros (j & _ & L & _). cbn in L. lia.
  - unfold spec_row. cbn [length seq combine flat_map fst snd]. fold (spec_row W h thr b (S j0) kets).
    rewrite in_app_iff, IH. split.
    + intros [H|(j & -> & L & E & St)].
      * destruct (stored thr b k _) eqn:St; [|destruct H]. destruct H as [H|[]]. injection H as <- <-.
        exists 0. split; [lia|]. split; [lia|]. cbn [nth]. auto.
      * exists (S j). split; [lia|]. split; [lia|]. cbn [nth]. auto.
    + intros ([|j] & -> & L & E & St).
      * left. cbn [nth] in *. subst v. rewrite St. left. f_equal. lia.
      * right. exists j. split; [lia|]. split; [lia|]. auto.
Qed.
Lemma stored_iff thr b k v : stored thr b k v = true <->
  b <> 0%N /\ k <> 0%N /\ (exists d, size_is (N.lxor b k) d /\ d <= 4) /\ (thr < Qcabs v)%Qc.
Proof.
  unfold stored, near, abs_gt. rewrite !andb_true_iff, !negb_true_iff, !N.eqb_neq, Nat.leb_le.
  assert (Q : qlt thr (Qcabs v) = true <-> (thr < Qcabs v)%Qc).
  { destruct (qlt_spec thr (Qcabs v)); intuition congruence. }
  rewrite Q. split.
  - intros [[[A B] C] D]. repeat split; auto. exists (bs_count (N.lxor b k)). split; auto. apply size_is_count. auto.
  - intros (A & B & (d & S & L) & D). apply size_is_count in S. repeat split; auto. lia.
Qed.
Lemma c17 W h thr bras kets na nb :
  spin_width W -> norb h <= W / 2 ->
  (forall p q r s, p < norb h -> q < norb h -> r < norb h -> s < norb h ->
     V_pqrs h p q r s = V_pqrs h r s p q) ->
  (forall b, In b bras -> det_or_empty W (norb h) na nb b) ->
  (forall k, In k kets -> det_or_empty W (norb h) na nb k) ->
  exists A, make_csr_block W h thr bras kets = Ok A /\
    csr_m A = length bras /\ csr_n A = length kets /\ csr_ind A = 0 /\ csr_wf A /\
    forall i, i < length bras ->
      sorted_line (csr_line A i) /\
      forall j v, In (j, v) (csr_line A i) <->
        j < length kets /\ nth i bras 0%N <> 0%N /\ nth j kets 0%N <> 0%N /\
        (exists d, size_is (N.lxor (nth i bras 0%N) (nth j kets 0%N)) d /\ d <= 4) /\
        v = ham W (norb h) (T_pq h) (V_pqrs h) (nth i bras 0%N) (nth j kets 0%N) /\
        (thr < Qcabs v)%Qc.
Proof.
  intros HW Hn Vs B K.
  destruct (make_block_ok W HW h Hn Vs na nb thr bras kets B K) as (A & E & Em & En & Ei & Wf & L).
  exists A. repeat (split; [auto; fail|]). intros i Hi. rewrite L by auto. split.
  - apply (spec_row_sorted W h Hn).
  - intros j v. rewrite spec_row_In'. split.
    + intros (j' & -> & Lj & Ev & St). apply stored_iff in St. cbn [plus]. tauto.
    + intros (Lj & Z1 & Z2 & D & Ev & T). exists j. repeat split; auto. apply stored_iff. auto.
Qed.
Lemma c17_ex : exists A,
  make_csr_hamiltonian 64 ex_ints (Q2Qc 0) [(1 + 2 ^ 32)%N; (2 + 2 ^ 33)%N; 0%N; (1 + 2 ^ 33)%N] = Ok A /\
  rowptr A = [0; 3; 6; 6; 9] /\ colind A = [0; 1; 3; 0; 1; 3; 0; 1; 3].
Proof.
  match goal with |- exists A, ?r = Ok A /\ _ => 
    destruct (okb_ok r (fun A => (if list_eq_dec Nat.eq_dec (rowptr A) [0; 3; 6; 6; 9] then true else false)
      && (if list_eq_dec Nat.eq_dec (colind A) [0; 1; 3; 0; 1; 3; 0; 1; 3] then true else false)))
      as (A & E & H) end.
  - vm_compute. reflexivity.
  - exists A. split; auto. destruct (list_eq_dec _ _ _); [|discriminate].
    destruct (list_eq_dec _ _ _); [|discriminate]. auto.
Qed.

Lemma entry_notin l j : ~ In j (map fst l) -> entry l j = 0%Qc.
Proof.
  intros H. apply sum_zero. intros [c v] Hc. cbn. destruct (Nat.eqb_spec c j); auto. subst.
  exfalso. apply H. apply in_map_iff. exists (j, v). auto.
Qed.
Lemma entry_sorted l j v : sorted_line l -> In (j, v) l -> entry l j = v.
Proof.
  unfold sorted_line, entry. induction l as [|[c w] l IH]; cbn [map fst]; intros S H; [destruct H|].
  apply StronglySorted_inv in S. destruct S as [S F]. rewrite Forall_forall in F. cbn [sum fst snd].
  destruct H as [H|H].
  - injection H as -> ->. rewrite Nat.eqb_refl. change (v + entry l j = v)%Qc. rewrite entry_notin; [ring|].
    intros Hj. apply F in Hj. lia.
  - rewrite IH by auto. destruct (Nat.eqb_spec c j); [|ring]. subst. exfalso.
    specialize (F j). assert (j < j); [|lia]. apply F. apply in_map_iff. exists (j, v). auto.
Qed.
Lemma ham_from_vacuum W n T V bra : ham W n T V bra 0 = 0%Qc.
Proof.
  assert (A : forall l p, braket bra (l ++ [Ann p]) 0 = 0%Qc).
  { intros l p. unfold braket. rewrite apply_app. cbn [apply act]. rewrite tb_0. reflexivity. }
  unfold ham, one_body, two_body.
  rewrite (sum_zero spins), (sum_zero spins).
  - ring.
  - intros s _. apply sum_zero. intros t _. do 4 (apply sum_zero; intros ? _).
    match goal with |- (_ * braket _ [?x; ?y; ?z; Ann ?p] _ = _)%Qc => change [x; y; z; Ann p] with ([x; y; z] ++ [Ann p]) end.
    rewrite A. ring.
  - intros s _. do 2 (apply sum_zero; intros ? _).
    match goal with |- (_ * braket _ [?x; Ann ?p] _ = _)%Qc => change [x; Ann p] with ([x] ++ [Ann p]) end.
    rewrite A. ring.
Qed.
Lemma c17_entry W h thr bras kets na nb :
  spin_width W -> norb h <= W / 2 ->
  (forall p q r s, p < norb h -> q < norb h -> r < norb h -> s < norb h ->
     V_pqrs h p q r s = V_pqrs h r s p q) ->
  (forall b, In b bras -> in_space W (norb h) b /\ size_is (alpha W b) na /\ size_is (beta W b) nb) ->
  (forall k, In k kets -> in_space W (norb h) k /\ size_is (alpha W k) na /\ size_is (beta W k) nb) ->
  (0 <= thr)%Qc ->
  exists A, make_csr_block W h thr bras kets = Ok A /\
    forall i j, i < length bras -> j < length kets ->
      let x := ham W (norb h) (T_pq h) (V_pqrs h) (nth i bras 0%N) (nth j kets 0%N) in
      csr_entry A i j = if qlt thr (Qcabs x) then x else 0%Qc.
Proof.
  intros HW Hn Vs B K T.
  destruct (c17 W h thr bras kets na nb HW Hn Vs) as (A & E & Em & En & Ei & Wf & L).
  - intros b Hb. right. auto.
  - intros k Hk. right. auto.
  - exists A. split; auto. intros i j Hi Hj x. destruct (L i Hi) as [S I].
    assert (Gb := B (nth i bras 0%N) (nth_In _ _ Hi)). assert (Gk := K (nth j kets 0%N) (nth_In _ _ Hj)).
    unfold csr_entry. destruct (qlt_spec thr (Qcabs x)) as [Q|Q].
    + apply entry_sorted; auto. apply I.
      assert (Zx : x <> 0%Qc).
      { intros Z. rewrite Z in Q. unfold Qcabs in Q. destruct (qlt_spec 0 0) as [Q'|_].
        - apply (Qclt_not_eq _ _ Q'). auto.
        - apply Qcle_not_lt in T. auto. }
      assert (Zk : nth j kets 0%N <> 0%N).
      { intros Z. apply Zx. unfold x. rewrite Z. apply ham_from_vacuum. }
      split; auto. split.
      { intros Z. apply Zk. apply count_zero.
        rewrite (good_count W HW (norb h) Hn na nb _ Gk), <- (good_count W HW (norb h) Hn na nb _ Gb), Z. reflexivity. }
      split; auto. split; [|auto].
      destruct Gb as (Gbs & Gba & Gbb). destruct Gk as (Gks & Gka & Gkb).
      destruct (moves_exists _ _ _ Gka Gba) as (ka & Ma). destruct (moves_exists _ _ _ Gkb Gbb) as (kb & Mb).
      destruct (Nat.leb_spec 3 (ka + kb)) as [F|F].
      { exfalso. apply Zx. apply (ham_far W h Hn) with (ka := ka) (kb := kb); auto. }
      exists (2 * (ka + kb)). split; [|lia]. apply size_is_count. rewrite (count_split W); auto.
      2:{ apply wf_xor; apply in_space_wf with (n := norb h); auto. }
      rewrite alpha_xor, beta_xor. apply count_xor_moves in Ma, Mb. lia.
    + apply entry_notin. intros H. apply in_map_iff in H. destruct H as ([c v] & Ec & H). cbn in Ec. subst c.
      apply I in H. destruct H as (_ & _ & _ & _ & -> & H). auto.
Qed.

(** ** C18 *)
Lemma c18_tiles M P : 0 < P ->
  exists t, default_tiles M P = Ok t /\ length t = P /\
    forall i, i < M -> exists r x y, nth_error t r = Some (x, y) /\ x <= i < y /\
      forall r' x' y', nth_error t r' = Some (x', y') -> x' <= i < y' -> r' = r.
Proof.
  intros HP. destruct (default_tiles_ok M P HP) as (t & E & L & T). exists t. split; auto. split; auto.
  intros i Hi. apply (tiling_owner _ _ _ T). lia.
Qed.

(** ** C19 - C21 *)
Lemma c19_acc W n bras kets na nb g0 G0 :
  spin_width W -> n <= W / 2 ->
  (forall b, In b (bras ++ kets) ->
     in_space W n (fst b) /\ size_is (alpha W (fst b)) na /\ size_is (beta W (fst b)) nb) ->
  exists g G, form_rdms W n bras kets (g0, Some G0) = Ok (g, Some G) /\
    forall T V, eri_symmetric n V ->
    contract n T g V G = (contract n T g0 V G0 +
      sum bras (fun b => sum kets (fun k =>
        if qlt rdm_cutoff (Qcabs (snd b * snd k))
        then snd b * snd k * ham W n T V (fst b) (fst k) else 0)))%Qc.
Proof.
  intros HW Hn G.
  destruct (form_rdms_ok W HW n Hn na nb kets) with (bras := bras) (D1 := g0) (D2 := G0) as (g & G' & E & _ & I).
  - intros k Hk. apply G. apply in_app_iff. auto.
  - intros b Hb. apply G. apply in_app_iff. auto.
  - exists g, G'. split; auto.
Qed.
Lemma contract_zero n T V : contract n T (fun _ _ => 0%Qc) V (fun _ _ _ _ => 0%Qc) = 0%Qc.
Proof.
  unfold contract. rewrite (sum_zero (seq 0 n)), (sum_zero (seq 0 n)); [ring| |].
  - intros p _. do 3 (apply sum_zero; intros ? _). ring.
  - intros p _. apply sum_zero. intros ? _. ring.
Qed.
Lemma c19 W n bras kets na nb T V :
  spin_width W -> n <= W / 2 -> eri_symmetric n V ->
  (forall b, In b (bras ++ kets) ->
     in_space W n (fst b) /\ size_is (alpha W (fst b)) na /\ size_is (beta W (fst b)) nb) ->
  exists g G,
    form_rdms W n bras kets (fun _ _ => 0%Qc, Some (fun _ _ _ _ => 0%Qc)) = Ok (g, Some G) /\
    contract n T g V G =
      sum bras (fun b => sum kets (fun k =>
        if qlt rdm_cutoff (Qcabs (snd b * snd k))
        then (snd b * snd k * ham W n T V (fst b) (fst k))%Qc else 0%Qc)).
Proof.
  intros HW Hn Sy G.
  destruct (c19_acc W n bras kets na nb (fun _ _ => 0%Qc) (fun _ _ _ _ => 0%Qc) HW Hn G) as (g & G' & E & I).
  exists g, G'. split; auto. rewrite I by auto. rewrite contract_zero. apply Qcplus_0_l.
Qed.
Lemma c19_ex : rdm_cutoff <> 0%Qc /\ eri_symmetric 4 (V_pqrs ex_ints) /\
  exists g G, form_rdms 64 2 ex_wfn ex_wfn (fun _ _ => 0%Qc, Some (fun _ _ _ _ => 0%Qc)) = Ok (g, Some G) /\
    g 0 0 <> 0%Qc /\ G 0 1 0 1 <> 0%Qc.
Proof.
  split; [apply nz_ok; vm_compute; reflexivity|]. split.
  - intros p q r s _ _ _ _. cbn. split; f_equal; lia.
  - match goal with |- exists g G, ?r = Ok _ /\ _ =>
      destruct (okb_ok r (fun gG => match gG with (g, Some G) => nz (g 0 0) && nz (G 0 1 0 1) | _ => false end))
        as ([g [G|]] & E & H) end.
    + vm_compute. reflexivity.
    + apply andb_true_iff in H. destruct H as [A B]. exists g, G. split; auto. split; apply nz_ok; auto.
    + discriminate.
Qed.
Definition qcb (x y : Qc) : bool := negb (Qc_eq_bool x y).
Lemma qcb_ok x y : qcb x y = true -> x <> y.
Proof. unfold qcb, Qc_eq_bool. destruct (Qc_eq_dec x y); [discriminate|auto]. Qed.
Lemma c19_entries :
  exists W n b c p q g G, spin_width W /\ n <= W / 2 /\ in_space W n b /\ p < n /\ q < n /\
    form_rdms W n [(b, c)] [(b, c)] (fun _ _ => 0%Qc, Some (fun _ _ _ _ => 0%Qc)) = Ok (g, Some G) /\
    G p q q p <> (c * c * half * sum spins (fun s => sum spins (fun t =>
      braket b [Cre (so W s p); Cre (so W t q); Ann (so W t p); Ann (so W s q)] b)))%Qc.
Proof.
  exists 64, 2, 3%N, 1%Qc, 0, 1.
  destruct (okb_ok (form_rdms 64 2 [(3%N, 1%Qc)] [(3%N, 1%Qc)] (fun _ _ => 0%Qc, Some (fun _ _ _ _ => 0%Qc)))
    (fun gG => match gG with (g, Some G) => qcb (G 0 1 1 0) (1 * 1 * half * sum spins (fun s => sum spins (fun t =>
      braket 3 [Cre (so 64 s 0); Cre (so 64 t 1); Ann (so 64 t 0); Ann (so 64 s 1)] 3))) | _ => false end))
    as ([g [G|]] & E & H).
  - vm_compute. reflexivity.
  - exists g, G. split; [left; auto|]. split; [cbn; lia|]. split; [spc|]. split; [lia|]. split; [lia|].
    split; auto. apply qcb_ok. exact H.
  - discriminate.
Qed.

Lemma c20 W n bras kets na nb :
  spin_width W -> n <= W / 2 ->
  (forall b, In b (bras ++ kets) ->
     in_space W n (fst b) /\ size_is (alpha W (fst b)) na /\ size_is (beta W (fst b)) nb) ->
  exists g G,
    form_rdms W n bras kets (fun _ _ => 0%Qc, Some (fun _ _ _ _ => 0%Qc)) = Ok (g, Some G) /\
    forall p q, p < n -> q < n ->
    g p q = sum bras (fun b => sum kets (fun k =>
      if qlt rdm_cutoff (Qcabs (snd b * snd k))
      then (snd b * snd k *
        sum spins (fun s => braket (fst b) [Cre (so W s p); Ann (so W s q)] (fst k)))%Qc
      else 0%Qc)).
Proof.
  intros HW Hn G.
  destruct (c19_acc W n bras kets na nb (fun _ _ => 0%Qc) (fun _ _ _ _ => 0%Qc) HW Hn G) as (g & G' & E & I).
  exists g, G'. split; auto. intros p q Hp Hq.
  specialize (I (fun a b => if (a =? p) && (b =? q) then 1%Qc else 0%Qc) (fun _ _ _ _ => 0%Qc) (zero_sym n)).
  rewrite contract_zero in I. unfold contract in I. fold (c2 n (fun a b => if (a =? p) && (b =? q) then 1%Qc else 0%Qc) g) in I.
  rewrite c2_ind in I by auto. fold (c4 n (fun _ _ _ _ => 0%Qc) G') in I. rewrite c4_zero in I.
  etransitivity; [|exact (ordm_entry W n bras kets p q Hp Hq)].
  etransitivity; [symmetry; apply Qcplus_0_r|]. etransitivity; [exact I|]. apply Qcplus_0_l.
Qed.
Lemma NoDup_map_fst {A B} (l : list (A * B)) : NoDup (map fst l) -> NoDup l.
Proof. intros H. eapply NoDup_map_inv. exact H. Qed.
Lemma c20_trace W n wfn na nb :
  spin_width W -> n <= W / 2 -> NoDup (map fst wfn) ->
  (forall b, In b wfn ->
     in_space W n (fst b) /\ size_is (alpha W (fst b)) na /\ size_is (beta W (fst b)) nb) ->
  exists g G,
    form_rdms W n wfn wfn (fun _ _ => 0%Qc, Some (fun _ _ _ _ => 0%Qc)) = Ok (g, Some G) /\
    sum (seq 0 n) (fun p => g p p) =
    (inject (na + nb) * sum wfn (fun b =>
       if qlt rdm_cutoff (Qcabs (snd b * snd b)) then (snd b * snd b)%Qc else 0%Qc))%Qc.
Proof.
  intros HW Hn Nd G.
  destruct (c20 W n wfn wfn na nb HW Hn) as (g & G' & E & I).
  { intros b Hb. apply in_app_iff in Hb. apply G. tauto. }
  exists g, G'. split; auto.
  rewrite (sum_ext (seq 0 n) _ (fun p => sum wfn (fun b => sum wfn (fun k =>
      if qlt rdm_cutoff (Qcabs (snd b * snd k))
      then (snd b * snd k *
        sum spins (fun s => braket (fst b) [Cre (so W s p); Ann (so W s p)] (fst k)))%Qc
      else 0%Qc)))).
  2:{ intros p Hp. apply in_seq in Hp. apply I; lia. }
  rewrite sum_swap, <- sum_scale. apply sum_ext. intros b Hb. rewrite sum_swap.
  rewrite (sum_single wfn b) ; auto.
  - destruct (qlt rdm_cutoff (Qcabs (snd b * snd b))).
    + rewrite sum_scale. rewrite (number_op W n Hn na nb) by (apply G; auto). rewrite N.eqb_refl. ring.
    + rewrite sum_zero by auto. ring.
  - apply NoDup_map_fst. auto.
  - intros k Hk Nk. destruct (qlt rdm_cutoff (Qcabs (snd b * snd k))).
    + rewrite sum_scale. rewrite (number_op W n Hn na nb) by (apply G; auto).
      destruct (N.eqb_spec (fst b) (fst k)) as [Eq|]; [|ring]. exfalso. apply Nk.
      destruct (In_nth _ _ (0%N, 0%Qc) Hb) as (i & Li & Ei). destruct (In_nth _ _ (0%N, 0%Qc) Hk) as (j & Lj & Ej).
      rewrite <- Ei, <- Ej in Eq |- *. f_equal.
      rewrite <- !(map_nth fst) in Eq.
      apply (NoDup_nth (map fst wfn) (fst (0%N, 0%Qc))) in Eq; auto; rewrite map_length; auto.
    + apply sum_zero. auto.
Qed.
Lemma c21_ref :
  exists W n wfn, spin_width W /\ n <= W / 2 /\
    (forall b, In b wfn -> in_space W n (fst b) /\ size_is (alpha W (fst b)) 1 /\ size_is (beta W (fst b)) 1) /\
    exists g1 G g2,
      form_rdms W n wfn wfn (fun _ _ => 0%Qc, Some (fun _ _ _ _ => 0%Qc)) = Ok (g1, Some G) /\
      form_rdms W n wfn wfn (fun _ _ => 0%Qc, None) = Ok (g2, None) /\
      g1 0 1 <> g2 0 1.
Proof.
  exists 64, 2, ex_wfn. split; [left; auto|]. split; [cbn; lia|]. split.
  { intros b [<-|[<-|[]]]; cbn [fst]; (split; [spc|split; sz]). }
  destruct (okb_ok (form_rdms 64 2 ex_wfn ex_wfn (fun _ _ => 0%Qc, Some (fun _ _ _ _ => 0%Qc)))
    (fun gG => match gG with (g, Some G) => qz (g 0 1) | _ => false end)) as ([g1 [G|]] & E1 & H1);
    [vm_compute; reflexivity| |discriminate].
  destruct (okb_ok (form_rdms 64 2 ex_wfn ex_wfn (fun _ _ => 0%Qc, None))
    (fun gG => match gG with (g, None) => nz (g 0 1) | _ => false end)) as ([g2 [?|]] & E2 & H2);
    [vm_compute; reflexivity|discriminate|].
  exists g1, G, g2. split; auto. split; auto. intros Eq. rewrite Eq in H1. unfold nz in H2. rewrite H1 in H2. discriminate.
Qed.
Lemma c21_part W n bras kets na nb g0 G0 :
  spin_width W -> n <= W / 2 ->
  (forall b, In b (bras ++ kets) ->
     in_space W n (fst b) /\ size_is (alpha W (fst b)) na /\ size_is (beta W (fst b)) nb) ->
  (forall b k, In b bras -> In k kets -> ~ size_is (N.lxor (fst b) (fst k)) 4) ->
  exists g G, form_rdms W n bras kets (g0, Some G0) = Ok (g, Some G) /\
              form_rdms W n bras kets (g0, None) = Ok (g, None).
Proof.
  intros HW Hn G C.
  destruct (form_rdms_ok W HW n Hn na nb kets) with (bras := bras) (D1 := g0) (D2 := G0) as (g & G' & E & E' & _).
  - intros k Hk. apply G. apply in_app_iff. auto.
  - intros b Hb. apply G. apply in_app_iff. auto.
  - exists g, G'. split; auto. apply E'. intros b k Hb Hk X. apply (C b k Hb Hk). apply size_is_count. exact X.
Qed.
