(** Ritz values: sums of the lowest ones are below those of any orthonormal vectors. *)
From Coq Require Import QArith Qcanon Lqa.
From Verif Require Import Base SD Sums Ham Asci AsciSort Mem MemProofs DenseSpec DenseProofs DiisSpec DiisProofs DiisProofs2 DavSpec DavProofs DavProofs2 DavProofs3 ExpandProofs RotInvProofs Lobpcg LobpcgSpec LobpcgProofs.
Local Open Scope nat_scope.

Lemma dot_sym_ops n A x y : symmetric2 n A -> coupling n A x y = coupling n A y x.
Proof.
  intros S2. unfold coupling, matvec. rewrite (Sigma_ext n _ (fun i => Sigma n (fun j => nth i x 0 * (A i j * nth j y 0)))%Qc) by (intros; rewrite Sigma_scale; reflexivity).
  rewrite Sigma_swap. apply Sigma_ext. intros j Hj. rewrite <- Sigma_scale. apply Sigma_ext. intros i Hi. rewrite (S2 i j Hi Hj). ring.
Qed.
Lemma coupling_self n A x : coupling n A x x = expectation n A x. Proof. reflexivity. Qed.
Lemma image_dot n A X AX x j : image n A X AX -> j < length X -> dot n x (nth j AX []) = coupling n A x (nth j X []).
Proof. intros (_ & H) Hj. destruct (H j Hj) as (_ & E). unfold dot, coupling. apply Sigma_ext. intros i Hi. rewrite <- E by exact Hi. reflexivity. Qed.
Lemma Sigma_le n f g : (forall i, i < n -> (f i <= g i)%Qc) -> (Sigma n f <= Sigma n g)%Qc.
Proof.
  intros H. assert (P : (0 <= Sigma n (fun i => g i - f i))%Qc). { apply Sigma_nonneg. intros i Hi. specialize (H i Hi). apply Qcle_minus_iff in H. exact H. }
  rewrite Sigma_minus in P. apply Qcle_minus_iff. exact P.
Qed.
Lemma qsq_nonneg (x : Qc) : (0 <= x * x)%Qc.
Proof. exact (square_nonneg x). Qed.
Lemma dot_nonneg n x : (0 <= dot n x x)%Qc.
Proof. apply Sigma_nonneg. intros. apply qsq_nonneg. Qed.
Lemma Sigma_const_lt n k : k <= n -> Sigma n (fun j => if j <? k then 1 else 0)%Qc = Sigma k (fun _ => 1)%Qc.
Proof.
  induction n as [|n IH]; intros H; [replace k with 0 by lia; reflexivity|]. rewrite Sigma_S. destruct (Nat.eq_dec k (S n)) as [->|ne].
  - rewrite Sigma_S. destruct (Nat.ltb_spec n (S n)); [|lia]. f_equal. apply Sigma_ext. intros i Hi. destruct (Nat.ltb_spec i (S n)); [reflexivity|lia].
  - rewrite IH by lia. destruct (Nat.ltb_spec n k); [lia|]. ring.
Qed.
Lemma Sigma_cut n k f : k <= n -> Sigma n (fun j => (if j <? k then 1 else 0) * f j)%Qc = Sigma k f.
Proof.
  induction n as [|n IH]; intros H; [replace k with 0 by lia; reflexivity|]. rewrite Sigma_S. destruct (Nat.eq_dec k (S n)) as [->|ne].
  - rewrite Sigma_S. destruct (Nat.ltb_spec n (S n)); [|lia]. f_equal; [|ring]. apply Sigma_ext. intros i Hi. destruct (Nat.ltb_spec i (S n)); [ring|lia].
  - rewrite IH by lia. destruct (Nat.ltb_spec n k); [lia|]. ring.
Qed.

(** Bessel: the squared components of a vector along orthonormal ones *)
Lemma bessel n k X v : orthonormal n k X -> length X = k -> (Sigma k (fun i => dot n (nth i X []) v * dot n (nth i X []) v) <= dot n v v)%Qc.
Proof.
  intros O L. set (c := map (fun x => dot n x v) X). set (p := gemv_nn n X c).
  assert (Ec : forall i, i < k -> nth i c 0%Qc = dot n (nth i X []) v).
  { intros i Hi. unfold c. rewrite (nth_indep _ 0%Qc (dot n [] v)) by (rewrite map_length; lia). rewrite (map_nth (fun x => dot n x v)). reflexivity. }
  assert (PP : dot n p p = dot k c c). { unfold p. rewrite dot_gemv_orth by (rewrite L; exact O). rewrite L. reflexivity. }
  assert (VP : dot n v p = dot k c c). { unfold p. rewrite dot_gemv_r. rewrite L. apply Sigma_ext. intros i Hi. rewrite (dot_comm n v). rewrite <- Ec by exact Hi. reflexivity. }
  assert (D : (0 <= Sigma n (fun i => (nth i v 0 - nth i p 0) * (nth i v 0 - nth i p 0)))%Qc) by (apply Sigma_nonneg; intros; apply qsq_nonneg).
  rewrite (Sigma_ext n _ (fun i => nth i v 0 * nth i v 0 - (nth i v 0 * nth i p 0 + (nth i v 0 * nth i p 0 - nth i p 0 * nth i p 0)))%Qc) in D by (intros; ring).
  rewrite Sigma_minus, Sigma_plus, Sigma_minus in D. change (Sigma n (fun i => (nth i v 0 * nth i v 0)%Qc)) with (dot n v v) in D. change (Sigma n (fun i => (nth i v 0 * nth i p 0)%Qc)) with (dot n v p) in D. change (Sigma n (fun i => (nth i p 0 * nth i p 0)%Qc)) with (dot n p p) in D.
  rewrite PP, VP in D.
  assert (E : Sigma k (fun i => dot n (nth i X []) v * dot n (nth i X []) v)%Qc = dot k c c). { apply Sigma_ext. intros i Hi. rewrite Ec by exact Hi. reflexivity. }
  rewrite E. apply Qcle_minus_iff. replace (dot n v v + - dot k c c)%Qc with (dot n v v - (dot k c c + (dot k c c - dot k c c)))%Qc by ring. exact D.
Qed.

(** spectral form of a matrix in the basis of its eigenvectors *)
Section SPECTRAL.
  Variables (n : nat) (M : nat -> nat -> Qc) (W : list Qc) (C : list (list Qc)).
  Hypotheses (LC : length C = n) (SM : symmetric2 n M) (ROW : forall a b, a < n -> b < n -> Sigma n (fun j => entry C a j * entry C b j)%Qc = if a =? b then 1%Qc else 0%Qc)
    (EIG : forall j i, j < n -> i < n -> matvec n M (nth j C []) i = (nth j W 0 * entry C i j)%Qc).
  Lemma parseval x y : Sigma n (fun j => dot n (nth j C []) x * dot n (nth j C []) y)%Qc = dot n x y.
  Proof.
    unfold dot. rewrite (Sigma_ext n _ (fun j => Sigma n (fun a => Sigma n (fun b => entry C a j * entry C b j * (nth a x 0 * nth b y 0))))%Qc).
    - rewrite Sigma_swap. apply Sigma_ext. intros a Ha. rewrite Sigma_swap.
      rewrite (Sigma_ext n _ (fun b => (if b =? a then 1 else 0) * (nth a x 0 * nth b y 0))%Qc).
      + rewrite Sigma_delta by exact Ha. reflexivity.
      + intros b Hb. rewrite (Sigma_ext n _ (fun j => (nth a x 0 * nth b y 0) * (entry C a j * entry C b j))%Qc) by (intros; ring). rewrite Sigma_scale. rewrite ROW by assumption. rewrite (Nat.eqb_sym a b). ring.
    - intros j Hj. rewrite <- Sigma_scale_r. apply Sigma_ext. intros a Ha. rewrite <- Sigma_scale. apply Sigma_ext. intros b Hb. unfold entry. ring.
  Qed.
  Lemma eig_dot j x : j < n -> coupling n M (nth j C []) x = (nth j W 0 * dot n (nth j C []) x)%Qc.
  Proof.
    intros Hj. rewrite dot_sym_ops by exact SM. unfold coupling, dot. rewrite <- Sigma_scale. apply Sigma_ext. intros i Hi. rewrite EIG by assumption. unfold entry. ring.
  Qed.
  Lemma spectral x : expectation n M x = Sigma n (fun j => nth j W 0 * (dot n (nth j C []) x * dot n (nth j C []) x))%Qc.
  Proof.
    assert (E : expectation n M x = dot n x (map (matvec n M x) (seq 0 n))). { unfold expectation, dot. apply Sigma_ext. intros i Hi. rewrite nth_seq_map by exact Hi. reflexivity. }
    rewrite E. rewrite <- parseval. apply Sigma_ext. intros j Hj.
    assert (F : dot n (nth j C []) (map (matvec n M x) (seq 0 n)) = coupling n M (nth j C []) x). { unfold dot, coupling. apply Sigma_ext. intros i Hi. rewrite nth_seq_map by exact Hi. reflexivity. }
    rewrite F, eig_dot by exact Hj. ring.
  Qed.
  Lemma ky_fan k X : ascending W -> length W = n -> k <= n -> length X = k -> orthonormal n k X -> orthonormal n n C ->
    (first_sum k W <= Sigma k (fun i => expectation n M (nth i X [])))%Qc.
  Proof.
    intros AS LW Hk LX O OC. destruct k as [|k]; [apply Qcle_refl|]. set (p := fun j => Sigma (S k) (fun i => dot n (nth i X []) (nth j C []) * dot n (nth i X []) (nth j C []))%Qc).
    assert (P0 : forall j, (0 <= p j)%Qc) by (intros j; apply Sigma_nonneg; intros; apply qsq_nonneg).
    assert (P1 : forall j, j < n -> (p j <= 1)%Qc). { intros j Hj. pose proof (bessel n (S k) X (nth j C []) O LX) as B. rewrite (OC j j Hj Hj), Nat.eqb_refl in B. exact B. }
    assert (PS : Sigma n p = Sigma n (fun j => if j <? S k then 1 else 0)%Qc).
    { rewrite Sigma_const_lt by exact Hk. unfold p. rewrite Sigma_swap. apply Sigma_ext. intros i Hi.
      rewrite (Sigma_ext n _ (fun j => dot n (nth j C []) (nth i X []) * dot n (nth j C []) (nth i X []))%Qc) by (intros j Hj; rewrite (dot_comm n (nth i X [])); reflexivity).
      rewrite parseval, O by assumption. rewrite Nat.eqb_refl. reflexivity. }
    assert (ES : Sigma (S k) (fun i => expectation n M (nth i X [])) = Sigma n (fun j => nth j W 0 * p j)%Qc).
    { rewrite (Sigma_ext (S k) _ (fun i => Sigma n (fun j => nth j W 0 * (dot n (nth j C []) (nth i X []) * dot n (nth j C []) (nth i X []))))%Qc) by (intros i Hi; apply spectral).
      rewrite Sigma_swap. apply Sigma_ext. intros j Hj. unfold p. rewrite <- Sigma_scale. apply Sigma_ext. intros i Hi. rewrite (dot_comm n (nth j C [])). reflexivity. }
    rewrite ES. unfold first_sum. rewrite <- (Sigma_cut n (S k) (fun i => nth i W 0%Qc) Hk).
    set (d := fun j => if j <? S k then 1%Qc else 0%Qc) in *. set (w := nth k W 0%Qc).
    assert (Q : (0 <= Sigma n (fun j => (nth j W 0 - w) * (p j - d j)))%Qc).
    { apply Sigma_nonneg. intros j Hj. unfold d. destruct (Nat.ltb_spec j (S k)) as [Lt|Ge].
      - assert (L1 : (nth j W 0 <= w)%Qc) by (apply AS; lia). specialize (P1 j Hj). revert L1 P1. generalize (nth j W 0%Qc) as a, (p j) as q. generalize w. intros w' a q L1 L2.
        apply Qcle_minus_iff in L1. apply Qcle_minus_iff in L2. replace ((a - w') * (q - 1))%Qc with ((w' + - a) * (1 + - q))%Qc by ring. apply (Qcmult_le_compat_r 0 _ (1 + - q)%Qc) in L1; [|exact L2]. rewrite Qcmult_0_l in L1. exact L1.
      - assert (L1 : (w <= nth j W 0)%Qc) by (apply AS; lia). specialize (P0 j). revert L1 P0. generalize (nth j W 0%Qc) as a, (p j) as q. generalize w. intros w' a q L1 L2.
        apply Qcle_minus_iff in L1. replace ((a - w') * (q - 0))%Qc with ((a + - w') * q)%Qc by ring. apply (Qcmult_le_compat_r 0 _ q) in L1; [|exact L2]. rewrite Qcmult_0_l in L1. exact L1. }
    rewrite (Sigma_ext n _ (fun j => (nth j W 0 * p j - d j * nth j W 0) - w * (p j - d j))%Qc) in Q by (intros; ring). rewrite !Sigma_minus, Sigma_scale, Sigma_minus, PS in Q.
    unfold d in Q. cbv beta in Q. apply Qcle_minus_iff. match type of Q with (0 <= ?q)%Qc => match goal with |- (0 <= ?g)%Qc => replace g with q by ring end end. exact Q.
  Qed.
End SPECTRAL.
