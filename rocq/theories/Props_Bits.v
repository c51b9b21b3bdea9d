(** Properties C01-C03: bit strings. Statements only; proofs in BitsProofs.v. *)
From Coq Require Import Sorting.Sorted.
From Verif Require Import Base Bits BitsProofs.

(** C01: on every width, first-set-bit is one plus the least set position. *)
Theorem C01_ffs_is_least_set_bit : forall W x, wf W x -> x <> 0%N ->
  exists i, ffs W x = Ok (S i) /\ i < W /\ tb x i = true /\
            forall j, j < i -> tb x j = false.
Proof.
  intros W x Hx Hn. destruct (low_exists W x Hx Hn) as [i [Hi Hl]].
  exists i. exact (conj (ffs_low W x i Hx Hl) (conj Hi Hl)).
Qed.
Print Assumptions C01_ffs_is_least_set_bit.
Example C01_ffs_witness : wf 200 (2 ^ 150 + 2 ^ 70) /\ (2 ^ 150 + 2 ^ 70)%N <> 0%N /\
  ffs 200 (2 ^ 150 + 2 ^ 70) = Ok 71 /\ ffs 128 (2 ^ 100 + 2 ^ 70) = Ok 71 /\
  ffs 64 (2 ^ 40) = Ok 41 /\ ffs 20 (2 ^ 7) = Ok 8.
Proof. split; [apply wf_lt; reflexivity|]. vm_compute. repeat split; discriminate. Qed.

Theorem C01_fls_is_greatest_set_bit : forall W x, wf W x -> x <> 0%N ->
  exists i, fls W x = Ok i /\ i < W /\ tb x i = true /\
            forall j, i < j -> tb x j = false.
Proof.
  intros W x Hx Hn. destruct (high_exists W x Hx Hn) as [i [Hi Hh]].
  exists i. exact (conj (fls_high W x i Hx Hh) (conj Hi Hh)).
Qed.
Print Assumptions C01_fls_is_greatest_set_bit.
Example C01_fls_witness :
  fls 200 (2 ^ 150 + 2 ^ 70) = Ok 150 /\ fls 128 (2 ^ 100 + 2 ^ 70) = Ok 100 /\
  fls 128 (2 ^ 50 + 2 ^ 7) = Ok 50 /\ fls 64 (2 ^ 40 + 1) = Ok 40 /\ fls 32 (2 ^ 31) = Ok 31.
Proof. vm_compute. repeat split. Qed.

Theorem C01_bits_to_indices_exact : forall W x, wf W x ->
  exists l, bits_to_indices W x = Ok l /\ StronglySorted lt l /\
            forall i, In i l <-> tb x i = true.
Proof.
  intros W x Hx. exists (positions W x).
  split; [apply bits_to_indices_ok, Hx|split; [apply positions_sorted|]].
  intros i. rewrite positions_In. split; [tauto|]. intros H. split; [|exact H].
  destruct (Nat.ltb_spec i W); auto. rewrite Hx in H by auto. discriminate.
Qed.
Print Assumptions C01_bits_to_indices_exact.
Example C01_indices_witness : bits_to_indices 128 (2 ^ 100 + 2 ^ 70 + 5) = Ok [0; 2; 70; 100].
Proof. vm_compute. reflexivity. Qed.

(** The number of set bits is the number of listed indices. *)
Theorem C01_count_exact : forall W x, wf W x ->
  exists l, NoDup l /\ (forall i, In i l <-> tb x i = true) /\ bs_count x = length l.
Proof.
  intros W x Hx. exists (positions W x).
  split; [apply positions_NoDup|]. split; [|apply count_positions, Hx].
  intros i. rewrite positions_In. split; [tauto|]. intros H. split; [|exact H].
  destruct (Nat.ltb_spec i W); auto. rewrite Hx in H by auto. discriminate.
Qed.
Print Assumptions C01_count_exact.

(** On the empty string the answer of first-set-bit depends on the width
    (0, 64 or W) and last-set-bit is undefined behaviour. *)
Theorem C01_ffs_empty : forall W,
  ffs W 0 = Ok (if W <=? 64 then 0 else if W <=? 128 then 64 else W).
Proof. exact ffs_empty. Qed.
Print Assumptions C01_ffs_empty.
Theorem C01_fls_empty_undefined : forall W, fls W 0 = Err UB.
Proof. exact fls_empty. Qed.
Print Assumptions C01_fls_empty_undefined.
(** "0 iff empty" (the convention of ffs at the narrow widths) fails above 64. *)
Theorem C01_ffs_zero_iff_empty_refuted :
  exists W x, wf W x /\ ~ (ffs W x = Ok 0 <-> x = 0%N).
Proof.
  exists 128, 0%N. split; [apply wf_0|]. intros [_ H]. specialize (H eq_refl).
  vm_compute in H. discriminate.
Qed.
Print Assumptions C01_ffs_zero_iff_empty_refuted.

(** C02: masks *)
Theorem C02_full_mask_static : forall n M i, n <= M ->
  tb (full_mask_ct n M) i = true <-> i < n.
Proof.
  intros n M i H. rewrite tb_full_mask_ct by exact H. apply Nat.ltb_lt.
Qed.
Print Assumptions C02_full_mask_static.
Theorem C02_full_mask_dynamic : forall W n, n <= W ->
  exists m, full_mask W n = Ok m /\ forall i, tb m i = true <-> i < n.
Proof.
  intros W n H. exists (mask W n). split; [apply full_mask_ok, H|].
  intros i. rewrite tb_mask by exact H. apply Nat.ltb_lt.
Qed.
Print Assumptions C02_full_mask_dynamic.
Example C02_mask_witness : full_mask_ct 64 128 = (2 ^ 64 - 1)%N /\ full_mask 64 5 = Ok 31%N
  /\ full_mask_ct 5 10 = 31%N.
Proof. vm_compute. repeat split. Qed.

(** C02: truncation and expansion *)
Theorem C02_truncate_keeps_low_bits : forall n M x, n <= M -> wf M x ->
  exists y, truncate_bitset n M x = Ok y /\ wf n y /\
            forall i, i < n -> tb y i = tb x i.
Proof.
  intros n M x H Hx. destruct (truncate_ok n M x H Hx) as [y [E T]].
  exists y. split; [exact E|split].
  - intros i Hi. rewrite T. destruct (Nat.ltb_spec i n); [lia|reflexivity].
  - intros i Hi. rewrite T. destruct (Nat.ltb_spec i n); [reflexivity|lia].
Qed.
Print Assumptions C02_truncate_keeps_low_bits.
Theorem C02_expand_changes_nothing : forall n M x, M <= n -> wf M x ->
  expand_bitset n M x = Ok x.
Proof. exact expand_ok. Qed.
Print Assumptions C02_expand_changes_nothing.
Theorem C02_truncate_after_expand : forall n M x, M <= n -> wf M x ->
  (do y <- expand_bitset n M x; truncate_bitset M n y) = Ok x.
Proof.
  intros n M x H Hx. rewrite expand_ok by auto. cbn [bind].
  destruct (truncate_ok M n x H) as [y [E T]].
  { eapply wf_le; [|exact Hx]. exact H. }
  rewrite E. f_equal. apply tb_ext. intros i. rewrite T.
  destruct (Nat.ltb_spec i M); simpl; [reflexivity|]. symmetry. apply Hx. lia.
Qed.
Print Assumptions C02_truncate_after_expand.
Example C02_truncate_witness : truncate_bitset 32 128 (2 ^ 100 + 9) = Ok 9%N /\
  truncate_bitset 100 128 (2 ^ 120 + 2 ^ 99) = Ok (2 ^ 99)%N.
Proof. vm_compute. repeat split. Qed.

(** C02: halves *)
Theorem C02_halves : forall W x i, spin_width W -> i < W / 2 ->
  tb (bitset_lo_word W x) i = tb x i /\ tb (bitset_hi_word W x) i = tb x (i + W / 2).
Proof.
  intros W x i HW Hi. rewrite tb_lo, tb_hi by exact HW.
  destruct (Nat.ltb_spec i (W / 2)); [split; reflexivity|lia].
Qed.
Print Assumptions C02_halves.
Theorem C02_halves_recombine : forall W x, spin_width W -> wf W x ->
  N.lor (bitset_lo_word W x) (bs_shl W (bitset_hi_word W x) (W / 2)) = x.
Proof. exact lo_hi_recombine. Qed.
Print Assumptions C02_halves_recombine.
Theorem C02_halves_of_combination : forall W a b, spin_width W ->
  wf (W / 2) a -> wf (W / 2) b ->
  bitset_lo_word W (N.lor a (bs_shl W b (W / 2))) = a /\
  bitset_hi_word W (N.lor a (bs_shl W b (W / 2))) = b.
Proof.
  intros W a b HW Ha Hb.
  exact (conj (lo_of_combine W a b HW Ha Hb) (hi_of_combine W a b HW Ha Hb)).
Qed.
Print Assumptions C02_halves_of_combination.
Example C02_halves_witness : spin_width 128 /\
  bitset_lo_word 128 (2 ^ 70 + 5) = 5%N /\ bitset_hi_word 128 (2 ^ 70 + 5) = 64%N.
Proof. split; [right; reflexivity|]. vm_compute. split; reflexivity. Qed.

(** The "fast" integer conversions are exact only up to 32 bits: at widths 64
    and 128 the unsigned-long conversion returns the low 32 bits only, although
    the value may fit in 64 bits; and the unsigned-long-long conversion at width
    128 drops the high word where the standard conversion would throw. *)
Theorem C02_fast_to_ulong_refuted :
  exists W x v, wf W x /\ (x < 2 ^ 64)%N /\ fast_to_ulong W x = Ok v /\ v <> x.
Proof.
  exists 64, (2 ^ 32)%N, 0%N. split; [apply wf_lt; reflexivity|].
  vm_compute. repeat split; discriminate.
Qed.
Print Assumptions C02_fast_to_ulong_refuted.
Theorem C02_fast_to_ullong_refuted :
  exists W x v, wf W x /\ fast_to_ullong W x = Ok v /\ v <> x.
Proof.
  exists 128, (2 ^ 64)%N, 0%N. split; [apply wf_lt; reflexivity|].
  vm_compute. repeat split; discriminate.
Qed.
Print Assumptions C02_fast_to_ullong_refuted.
Theorem C02_fast_to_ullong_exact_up_to_64 : forall W x, W <= 64 -> wf W x ->
  fast_to_ullong W x = Ok x.
Proof. exact fast_to_ullong_ok. Qed.
Print Assumptions C02_fast_to_ullong_exact_up_to_64.
Theorem C02_to_uint128_exact : forall W x, W <= 64 \/ W = 128 -> wf W x ->
  to_uint128 W x = Ok x.
Proof.
  intros W x [H|H] Hx; unfold to_uint128.
  - destruct (Nat.eqb_spec W 128); [reflexivity|]. apply fast_to_ullong_ok; assumption.
  - subst. reflexivity.
Qed.
Print Assumptions C02_to_uint128_exact.

(** C03: the comparator is numeric order, hence a strict total order. *)
Theorem C03_less_is_numeric_order : forall W x y, wf W x -> wf W y ->
  bitset_less W x y = Ok (x <? y)%N.
Proof. exact bitset_less_ok. Qed.
Print Assumptions C03_less_is_numeric_order.
Theorem C03_less_irreflexive : forall W x, wf W x -> bitset_less W x x = Ok false.
Proof. intros W x Hx. rewrite bitset_less_ok by auto. rewrite N.ltb_irrefl. reflexivity. Qed.
Print Assumptions C03_less_irreflexive.
Theorem C03_less_transitive : forall W x y z, wf W x -> wf W y -> wf W z ->
  bitset_less W x y = Ok true -> bitset_less W y z = Ok true ->
  bitset_less W x z = Ok true.
Proof.
  intros W x y z Hx Hy Hz. rewrite !bitset_less_ok by auto. intros H1 H2.
  injection H1 as H1. injection H2 as H2. apply N.ltb_lt in H1, H2. f_equal.
  apply N.ltb_lt. lia.
Qed.
Print Assumptions C03_less_transitive.
Theorem C03_less_trichotomy : forall W x y, wf W x -> wf W y ->
  bitset_less W x y = Ok true \/ x = y \/ bitset_less W y x = Ok true.
Proof.
  intros W x y Hx Hy. rewrite !bitset_less_ok by auto.
  destruct (N.lt_trichotomy x y) as [H|[H|H]].
  - left. f_equal. apply N.ltb_lt, H.
  - right; left; exact H.
  - right; right. f_equal. apply N.ltb_lt, H.
Qed.
Print Assumptions C03_less_trichotomy.
Example C03_witness : bitset_less 256 (2 ^ 200) (2 ^ 201) = Ok true /\
  bitset_less 128 (2 ^ 127) (2 ^ 126) = Ok false /\ bitset_less 64 3 (2 ^ 40) = Ok true.
Proof. vm_compute. repeat split. Qed.
