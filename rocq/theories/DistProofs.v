From Coq Require Import QArith Qcanon.
From Verif Require Import Base Bits BitsProofs SD Spec SDProofs SDProofs2 Sums FockSpec Ham HamProofs7 HamProofs8 SparseSpec CsrView CsrProofs Dist.
Local Open Scope nat_scope.

Lemma tile_loop_ok k per : forall last, tiling last (last + k * per) (tile_loop k per last).
Proof.
  induction k as [|k IH]; intros last; cbn [tile_loop Nat.mul].
  - rewrite Nat.add_0_r. constructor.
  - constructor; [lia|]. replace (last + (per + k * per)) with (last + per + k * per) by lia. apply IH.
Qed.
Lemma tile_loop_len k per : forall last, length (tile_loop k per last) = k.
Proof. induction k; intros; cbn; auto. Qed.
Lemma add_last_ok l c : forall a b, l <> [] -> tiling a b l ->
  exists l', add_last l c = Ok l' /\ tiling a (b + c) l' /\ length l' = length l.
Proof.
  induction l as [|[x y] l IH]; intros a b Hn H; [congruence|].
  assert (G : a = x /\ x <= y /\ tiling y b l) by (inversion H; subst; auto).
  destruct G as (-> & Lxy & Ht). destruct l as [|z l].
  - assert (y = b) by (inversion Ht; auto). subst y. exists [(x, b + c)]. cbn. split; auto. split; auto.
    constructor; [lia|constructor].
  - destruct (IH y b) as (l' & E & T & L); [discriminate|auto|].
    exists ((x, y) :: l'). split; [|split].
    + change (add_last ((x, y) :: z :: l) c) with (do r' <- add_last (z :: l) c; Ok ((x, y) :: r')).
      rewrite E. reflexivity.
    + constructor; auto.
    + cbn [length] in *. lia.
Qed.

Lemma default_tiles_ok M P : 0 < P ->
  exists t, default_tiles M P = Ok t /\ length t = P /\ tiling 0 M t.
Proof.
  intros HP. unfold default_tiles. destruct (Nat.eqb_spec P 0); [lia|].
  destruct (add_last_ok ((0, M / P) :: tile_loop (P - 1) (M / P) (M / P)) (M mod P) 0 (M / P + (P - 1) * (M / P)))
    as (t & E & T & L); [discriminate| |].
  - constructor; [lia|]. apply tile_loop_ok.
  - exists t. split; auto. split.
    + rewrite L. cbn [length]. rewrite tile_loop_len. lia.
    + replace (M / P + (P - 1) * (M / P) + M mod P) with M in T; auto.
      rewrite (Nat.div_mod M P) at 1 by lia. destruct P; [lia|]. cbn [Nat.sub]. rewrite Nat.sub_0_r. lia.
Qed.

Lemma tiling_le a b l : tiling a b l -> a <= b.
Proof. induction 1; lia. Qed.
Lemma tiling_nth a b l : tiling a b l -> forall r x y, nth_error l r = Some (x, y) -> a <= x /\ x <= y /\ y <= b.
Proof.
  induction 1 as [|a m b l L H IH]; intros r x y E.
  - destruct r; discriminate.
  - pose proof (tiling_le _ _ _ H). destruct r as [|r]; cbn in E.
    + injection E as <- <-. lia.
    + apply IH in E. lia.
Qed.
Lemma tiling_owner a b l : tiling a b l -> forall i, a <= i < b ->
  exists r x y, nth_error l r = Some (x, y) /\ x <= i < y /\
    forall r' x' y', nth_error l r' = Some (x', y') -> x' <= i < y' -> r' = r.
Proof.
  induction 1 as [|a m b l L H IH]; intros i Hi; [lia|].
  destruct (Nat.ltb_spec i m).
  - exists 0, a, m. split; auto. split; [lia|]. intros [|r'] x' y' E Hx; auto. cbn in E.
    apply (tiling_nth _ _ _ H) in E. lia.
  - destruct (IH i) as (r & x & y & E & Hx & U); [lia|]. exists (S r), x, y. split; auto. split; auto.
    intros [|r'] x' y' E' Hx'.
    + cbn in E'. injection E' as <- <-. lia.
    + f_equal. eapply U; eauto.
Qed.
Lemma tiling_consec a b l : tiling a b l -> forall r x y x' y',
  nth_error l r = Some (x, y) -> nth_error l (S r) = Some (x', y') -> x' = y.
Proof.
  induction 1 as [|a m b l L H IH]; intros r x y x' y' E E'.
  - destruct r; discriminate.
  - destruct r as [|r]; cbn in E, E'.
    + injection E as <- <-. destruct l as [|[u v] l]; [discriminate|]. cbn in E'. injection E' as <- <-.
      inversion H; auto.
    + eapply IH; eauto.
Qed.

Lemma custom_tiles_ok M P t t' : custom_tiles M P t = Ok t' -> t' = t /\ length t = P /\ tiling 0 M t.
Proof.
  unfold custom_tiles. destruct (Nat.eqb_spec (length t) P) as [L|]; [|discriminate]. cbn [negb].
  destruct t as [|t0 t1]; [discriminate|]. set (t := t0 :: t1) in *.
  destruct (Nat.eqb_spec (fst t0) 0) as [F|]; [|discriminate]. cbn [negb orb].
  destruct (Nat.eqb_spec (snd (last t (0, 0))) M) as [B|]; [|discriminate]. cbn [negb].
  destruct (existsb (fun ij => snd ij <? fst ij) t) eqn:E1; [discriminate|].
  destruct (existsb _ (seq 0 (P - 1))) eqn:E2; [discriminate|]. intros E. injection E as <-.
  split; auto. split; auto.
  assert (S1 : forall x, In x t -> fst x <= snd x).
  { intros x Hx. destruct (Nat.leb_spec (fst x) (snd x)) as [?|G]; auto. exfalso.
    assert (X : existsb (fun ij => snd ij <? fst ij) t = true); [|congruence].
    apply existsb_exists. exists x. split; auto. apply Nat.ltb_lt. auto. }
  assert (S2 : forall i, S i < length t -> snd (nth i t (0, 0)) = fst (nth (S i) t (0, 0))).
  { intros i Hi. destruct (Nat.eqb_spec (snd (nth i t (0, 0))) (fst (nth (S i) t (0, 0)))) as [?|G]; auto. exfalso.
    match type of E2 with ?e = false => assert (X : e = true); [|congruence] end.
    apply existsb_exists. exists i. split; [apply in_seq; lia|]. apply negb_true_iff, Nat.eqb_neq. auto. }
  clear E1 E2 L. subst t. destruct t0 as [a0 b0]. cbn [fst] in F. subst a0.
  assert (K : forall t1 b0 a, (forall x, In x ((a, b0) :: t1) -> fst x <= snd x) ->
    (forall i, S i < length ((a, b0) :: t1) ->
       snd (nth i ((a, b0) :: t1) (0, 0)) = fst (nth (S i) ((a, b0) :: t1) (0, 0))) ->
    snd (last ((a, b0) :: t1) (0, 0)) = M -> tiling a M ((a, b0) :: t1)); [|apply K; auto].
  clear. induction t1 as [|[a1 b1] t1 IH]; intros b0 a S1 S2 B.
  - cbn in B. subst. constructor; [apply (S1 (a, M)); left; auto|constructor].
  - assert (X := S2 0). cbn in X. constructor; [apply (S1 (a, b0)); left; auto|].
    rewrite X by lia. apply IH.
    + intros x Hx. apply S1. right. auto.
    + intros i Hi. apply (S2 (S i)). cbn [length] in *. lia.
    + cbn [last] in B. exact B.
Qed.
Lemma custom_tiles_accepts M P t : length t = P -> P <> 0 -> tiling 0 M t -> custom_tiles M P t = Ok t.
Proof.
  intros L Z T. unfold custom_tiles. rewrite L, Nat.eqb_refl. cbn [negb].
  assert (LB : forall a b l, tiling a b l -> l <> [] -> snd (last l (0, 0)) = b).
  { induction 1 as [|a m b l Lm H IH]; intros N; [congruence|]. destruct l as [|z l].
    - inversion H; subst. reflexivity.
    - change (snd (last (z :: l) (0, 0)) = b). apply IH. discriminate. }
  destruct t as [|[a b] t]; [cbn in L; congruence|]. inversion T; subst.
  cbn [fst]. rewrite Nat.eqb_refl. cbn [negb orb].
  rewrite (LB 0 M _ T) by discriminate. rewrite Nat.eqb_refl. cbn [negb].
  destruct (existsb (fun ij => snd ij <? fst ij) ((0, b) :: t)) eqn:E1.
  { exfalso. apply existsb_exists in E1. destruct E1 as ([x y] & Hx & E). apply Nat.ltb_lt in E.
    apply In_nth_error in Hx. destruct Hx as (r & Hr). apply (tiling_nth _ _ _ T) in Hr. cbn in E. lia. }
  match goal with |- (if ?e then _ else _) = _ => destruct e eqn:E2 end; auto.
  exfalso. apply existsb_exists in E2. destruct E2 as (i & Hi & E). apply in_seq in Hi.
  apply negb_true_iff, Nat.eqb_neq in E. apply E. cbn [length] in Hi.
  set (t' := (0, b) :: t) in *.
  destruct (nth_error t' i) as [[x y]|] eqn:A.
  2:{ apply nth_error_None in A. cbn [length t'] in A. lia. }
  destruct (nth_error t' (S i)) as [[x' y']|] eqn:B.
  2:{ apply nth_error_None in B. cbn [length t'] in B. lia. }
  rewrite (nth_error_nth t' i (0, 0) A), (nth_error_nth t' (S i) (0, 0) B). cbn [fst snd].
  symmetry. exact (tiling_consec _ _ _ T _ _ _ _ _ A B).
Qed.

(** C18 with the default tiles *)
Lemma dist_csr_ok W h thr sds na nb P r : spin_width W -> norb h <= W / 2 ->
  (forall p q r s, p < norb h -> q < norb h -> r < norb h -> s < norb h -> V_pqrs h p q r s = V_pqrs h r s p q) ->
  (forall b, In b sds -> good W (norb h) na nb b) -> 0 < P -> r < P ->
  exists t st en A D O,
    default_tiles (length sds) P = Ok t /\ nth_error t r = Some (st, en) /\ st <= en <= length sds /\
    make_csr_hamiltonian W h thr sds = Ok A /\
    make_dist_csr_hamiltonian W h thr sds P r = Ok (D, O) /\
    csr_wf D /\ csr_m D = en - st /\ csr_n D = en - st /\
    (forall i, i < en - st ->
        map (fun cv => (fst cv + st, snd cv)) (csr_line D i) = filter (inside st en) (csr_line A (st + i))) /\
    (1 < P -> exists B, O = Some B /\ csr_wf B /\ csr_m B = en - st /\ csr_n B = length sds /\
        forall i, i < en - st ->
          csr_line B i = filter (fun cv => negb (inside st en cv)) (csr_line A (st + i))) /\
    (P <= 1 -> O = None /\ st = 0 /\ en = length sds).
Proof.
  intros HW Hn Vs G HP Hr.
  destruct (default_tiles_ok (length sds) P HP) as (t & Et & Lt & Tt).
  destruct (nth_error t r) as [[st en]|] eqn:E.
  2:{ apply nth_error_None in E. lia. }
  pose proof (tiling_nth _ _ _ Tt _ _ _ E) as (L0 & L1 & L2).
  destruct (dist_ok W HW h Hn Vs na nb thr sds P st en L1 L2 G) as (A & D & O & E1 & E2 & WD & mD & nD & RD & RO & R1).
  exists t, st, en, A, D, O. split; auto. split; auto. split; [lia|]. split; auto.
  split. { unfold make_dist_csr_hamiltonian. rewrite Et. cbn [bind]. rewrite E. exact E2. }
  split; auto. split; auto. split; auto. split; auto. split; auto.
  intros HP1. split; [auto|]. assert (L' : length t = 1) by lia. assert (r = 0) by lia. subst r. clear Lt.
  destruct t as [|[a b] [|? ?]]; cbn in L'; try lia. cbn in E.
  assert (a = st /\ b = en) as [-> ->] by (inversion E; auto).
  assert (st = 0 /\ tiling en (length sds) []) as [-> X] by (inversion Tt; auto).
  inversion X. auto.
Qed.
