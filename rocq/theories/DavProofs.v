From Coq Require Import QArith Qcanon.
From Verif Require Import Base SD Nondet SlaterCondon Ham HamProofs Asci Mem MemProofs Sums Sparse Spmv Dist Collective Diis
  DenseSpec DenseProofs DiisSpec DiisProofs DiisProofs2 RotProofs LinRespProofs ExpandProofs FockMatProofs PSpmvProofs2 Davidson DavSpec.
Local Open Scope nat_scope.

Lemma bind_inv {A B} (m : res A) (f : A -> res B) y : (do x <- m; f x) = Ok y -> exists x, m = Ok x /\ f x = Ok y.
Proof. destruct m; cbn; [eauto|discriminate]. Qed.
Lemma mapM_inv {A B} (f : A -> res B) l : forall r, mapM f l = Ok r ->
  length r = length l /\ forall i a b, i < length l -> f (nth i l a) = Ok (nth i r b).
Proof.
  induction l as [|x l IH]; intros r H.
  - cbn in H. injection H as <-. split; [reflexivity|]. cbn. lia.
  - cbn in H. apply bind_inv in H. destruct H as (y & Hy & H). apply bind_inv in H. destruct H as (ys & Hys & H). injection H as <-.
    destruct (IH _ Hys) as [L F]. split; [cbn; lia|]. intros [|i] a b Hi; cbn; [exact Hy|]. apply F. cbn in Hi. lia.
Qed.
Lemma mapM_seq_inv {B} (f : nat -> res B) n r b : mapM f (seq 0 n) = Ok r -> length r = n /\ forall i, i < n -> f i = Ok (nth i r b).
Proof.
  intros H. destruct (mapM_inv _ _ _ H) as [L F]. rewrite seq_length in L. split; [exact L|].
  intros i Hi. specialize (F i 0 b). rewrite seq_length, seq_nth in F by exact Hi. apply F. exact Hi.
Qed.
Lemma at_inv {A} (l : list A) i x d : at_ l i = Ok x -> i < length l /\ nth i l d = x.
Proof. unfold at_. destruct (nth_error l i) as [y|] eqn:E; [|discriminate]. intros [= <-]. split; [apply nth_error_Some; congruence|]. now apply nth_error_nth. Qed.
Lemma sumM_inv {A} (f : A -> res Qc) g l : forall acc s, (forall x y, In x l -> f x = Ok y -> y = g x) -> sumM acc l f = Ok s -> s = (acc + sum l g)%Qc.
Proof.
  induction l as [|x l IH]; intros acc s Hg H.
  - cbn in H. injection H as <-. cbn. ring.
  - cbn [sumM] in H. apply bind_inv in H. destruct H as (y & Hy & H).
    rewrite (Hg x y (or_introl eq_refl) Hy) in H.
    rewrite (IH _ s (fun x' y' I => Hg x' y' (or_intror I)) H). cbn [sum]. ring.
Qed.

Lemma sumM_Sigma_inv f g n s : (forall i y, i < n -> f i = Ok y -> y = g i) -> sumM 0%Qc (seq 0 n) f = Ok s -> s = Sigma n g.
Proof. intros Hg H. rewrite (sumM_inv f g (seq 0 n) 0%Qc s); [unfold Sigma; ring| |exact H]. intros x y I. apply Hg. apply in_seq in I. lia. Qed.
Lemma dot_inv N x y s : dot_ N x y = Ok s -> s = dot N x y.
Proof.
  unfold dot_. apply sumM_Sigma_inv. intros i v Hi H. apply bind_inv in H. destruct H as (a & Ha & H).
  apply bind_inv in H. destruct H as (b & Hb & H). injection H as <-.
  apply (at_inv _ _ _ 0%Qc) in Ha. apply (at_inv _ _ _ 0%Qc) in Hb. destruct Ha as [_ <-]. destruct Hb as [_ <-]. reflexivity.
Qed.
Lemma gemm_t_inv N K V x r : gemm_t N K V x = Ok r -> 0 < N /\ length r = K /\ forall c, c < K -> nth c r 0%Qc = dot N (nth c V []) x.
Proof.
  unfold gemm_t. destruct (Nat.eqb_spec N 0) as [->|NZ]; [discriminate|]. intros H. apply (mapM_seq_inv _ _ _ 0%Qc) in H. destruct H as [L F].
  split; [lia|]. split; [exact L|]. intros c Hc. specialize (F c Hc). apply bind_inv in F. destruct F as (v & Hv & F).
  apply (at_inv _ _ _ []) in Hv. destruct Hv as [_ <-]. apply dot_inv in F. exact F.
Qed.
Lemma gemm_n_inv N K a V c b y r : gemm_n N K a V c b y = Ok r -> 0 < N /\ length r = N /\
  forall i, i < N -> nth i r 0%Qc = (a * Sigma K (fun l => nth i (nth l V []) 0 * nth l c 0) + b * nth i y 0)%Qc.
Proof.
  unfold gemm_n. destruct (Nat.eqb_spec N 0) as [->|NZ]; [discriminate|]. intros H. apply (mapM_seq_inv _ _ _ 0%Qc) in H. destruct H as [L F].
  split; [lia|]. split; [exact L|]. intros i Hi. specialize (F i Hi). apply bind_inv in F. destruct F as (s & Hs & F).
  apply bind_inv in F. destruct F as (yi & Hy & F). injection F as <-. apply (at_inv _ _ _ 0%Qc) in Hy. destruct Hy as [_ <-].
  apply (sumM_Sigma_inv _ (fun l => nth i (nth l V []) 0 * nth l c 0)%Qc) in Hs; [subst s; reflexivity|].
  intros l z Hl H. apply bind_inv in H. destruct H as (v & Hv & H). apply bind_inv in H. destruct H as (vi & Hvi & H).
  apply bind_inv in H. destruct H as (cl & Hcl & H). injection H as <-. apply (at_inv _ _ _ []) in Hv.
  apply (at_inv _ _ _ 0%Qc) in Hvi. apply (at_inv _ _ _ 0%Qc) in Hcl. destruct Hv as [_ <-]. destruct Hvi as [_ <-]. destruct Hcl as [_ <-]. reflexivity.
Qed.
Lemma scal_inv N a x r : scal N a x = Ok r -> length r = N /\ forall i, i < N -> nth i r 0%Qc = (a * nth i x 0)%Qc.
Proof.
  unfold scal. intros H. apply (mapM_seq_inv _ _ _ 0%Qc) in H. destruct H as [L F]. split; [exact L|].
  intros i Hi. specialize (F i Hi). apply bind_inv in F. destruct F as (s & Hs & F). injection F as <-.
  apply (at_inv _ _ _ 0%Qc) in Hs. destruct Hs as [_ <-]. reflexivity.
Qed.
Lemma fdiv_inv x y z : fdiv x y = Ok z -> y <> 0%Qc /\ z = (x / y)%Qc.
Proof. unfold fdiv. destruct (Qc_eq_dec y 0); [discriminate|]. intros [= <-]. auto. Qed.
Lemma precondition_inv N D lam R r : precondition N D lam R = Ok r -> length r = N.
Proof. unfold precondition. intros H. apply (mapM_seq_inv _ _ _ 0%Qc) in H. tauto. Qed.
Lemma nth_concat_cols {A} (cols : list (list A)) n d : forall j i, (forall c, In c cols -> length c = n) -> j < length cols -> i < n ->
  nth (i + j * n) (concat cols) d = nth i (nth j cols []) d.
Proof.
  induction cols as [|c cols IH]; intros j i H Hj Hi; [cbn in Hj; lia|].
  assert (Lc : length c = n) by (apply H; left; reflexivity).
  destruct j as [|j]; cbn [concat nth].
  - rewrite Nat.mul_0_l, Nat.add_0_r. apply app_nth1. lia.
  - rewrite app_nth2 by lia. replace (i + S j * n - length c) with (i + j * n) by lia. apply IH; [|cbn in Hj; lia|exact Hi].
    intros c' I. apply H. right. exact I.
Qed.
Lemma concat_cols_length {A} (cols : list (list A)) n : (forall c, In c cols -> length c = n) -> length (concat cols) = length cols * n.
Proof. induction cols as [|c cols IH]; intros H; [reflexivity|]. cbn. rewrite app_length, (H c (or_introl eq_refl)), IH; [reflexivity|]. intros c' I. apply H. right. exact I. Qed.
Lemma gemm_tn_inv N K V AV M : gemm_tn N K V AV = Ok M -> length M = K * K /\
  forall i j, i < K -> j < K -> at2 M K i j = dot N (nth i V []) (nth j AV []).
Proof.
  unfold gemm_tn. intros H. apply bind_inv in H. destruct H as (cols & H & E). injection E as <-.
  apply (mapM_seq_inv _ _ _ []) in H. destruct H as [L F].
  assert (Lc : forall c, In c cols -> length c = K).
  { intros c I. apply (In_nth _ _ []) in I. destruct I as (j & Hj & <-). rewrite L in Hj. specialize (F j Hj).
    apply bind_inv in F. destruct F as (av & _ & F). apply gemm_t_inv in F. tauto. }
  split; [rewrite (concat_cols_length _ K Lc); lia|].
  intros i j Hi Hj. unfold at2. rewrite nth_concat_cols by (auto; lia). specialize (F j Hj).
  apply bind_inv in F. destruct F as (av & Hav & F). apply (at_inv _ _ _ []) in Hav. destruct Hav as [_ <-].
  apply gemm_t_inv in F. destruct F as (_ & _ & F). apply F. exact Hi.
Qed.

(** ** inner products *)
Lemma dot_ip n x y : dot n x y = ip n (fun m => nth m x 0%Qc) (fun m => nth m y 0%Qc).
Proof. reflexivity. Qed.
Lemma dot_lin_r n K (w : list Qc) (V : list (list Qc)) (c : nat -> Qc) y :
  (forall i, i < n -> nth i y 0%Qc = Sigma K (fun l => nth i (nth l V []) 0 * c l)%Qc) ->
  dot n w y = Sigma K (fun l => c l * dot n w (nth l V []))%Qc.
Proof.
  intros H. rewrite dot_ip, ip_comm.
  rewrite (ip_ext n _ (fun m => Sigma K (fun i => c i * nth m (nth i V []) 0))%Qc) by (intros m Hm; rewrite H by exact Hm; apply Sigma_ext; intros; ring).
  rewrite ip_lin. apply Sigma_ext. intros l Hl. f_equal. rewrite dot_ip. apply ip_comm.
Qed.
Lemma dot_ext_r n x y y' : (forall i, i < n -> nth i y 0%Qc = nth i y' 0%Qc) -> dot n x y = dot n x y'.
Proof. intros H. apply Sigma_ext. intros i Hi. rewrite H by exact Hi. reflexivity. Qed.
Lemma dot_ext_l n x y y' : (forall i, i < n -> nth i y 0%Qc = nth i y' 0%Qc) -> dot n y x = dot n y' x.
Proof. intros H. apply Sigma_ext. intros i Hi. rewrite H by exact Hi. reflexivity. Qed.

(** ** orthogonalisation *)
Lemma gs_pass N K V x inner y : gemm_t N K V x = Ok inner -> gemm_n N K (- (1))%Qc V inner 1%Qc x = Ok y ->
  length y = N /\ forall i, i < N -> nth i y 0%Qc = (nth i x 0 - Sigma K (fun l => nth i (nth l V []) 0 * dot N (nth l V []) x))%Qc.
Proof.
  intros H1 H2. apply gemm_t_inv in H1. destruct H1 as (_ & _ & H1). apply gemm_n_inv in H2. destruct H2 as (_ & L & H2).
  split; [exact L|]. intros i Hi. rewrite H2 by exact Hi.
  rewrite (Sigma_ext K (fun l => nth i (nth l V []) 0 * nth l inner 0)%Qc (fun l => nth i (nth l V []) 0 * dot N (nth l V []) x)%Qc)
    by (intros l Hl; rewrite H1 by exact Hl; reflexivity). ring.
Qed.
Lemma gs_pass_orth N K V x y : orthonormal N K V ->
  (forall i, i < N -> nth i y 0%Qc = (nth i x 0 - Sigma K (fun l => nth i (nth l V []) 0 * dot N (nth l V []) x))%Qc) ->
  forall a, a < K -> dot N (nth a V []) y = 0%Qc.
Proof.
  intros O H a Ha. rewrite dot_ip, ip_comm.
  rewrite (ip_ext N _ (fun m => nth m x 0 - Sigma K (fun l => dot N (nth l V []) x * nth m (nth l V []) 0))%Qc)
    by (intros m Hm; rewrite H by exact Hm; f_equal; apply Sigma_ext; intros; ring).
  rewrite ip_sub, ip_lin.
  rewrite (Sigma_ext K _ (fun l => (if l =? a then 1 else 0) * dot N (nth l V []) x)%Qc).
  2: { intros l Hl. rewrite <- dot_ip, O by assumption. destruct (l =? a); ring. }
  rewrite (Sigma_delta K a (fun l => dot N (nth l V []) x)) by exact Ha. rewrite (dot_ip N (nth a V [])), (ip_comm N (fun m => nth m (nth a V []) 0%Qc)). ring.
Qed.
Lemma gs_inv root N K V x y : orthonormal N K V -> gram_schmidt root N K V x = Ok y ->
  0 < N /\ length y = N /\ (forall l, l < K -> dot N (nth l V []) y = 0%Qc) /\
  exists q s a, s = root q /\ s <> 0%Qc /\ (s * s * dot N y y = q)%Qc /\
    forall i, i < N -> nth i x 0%Qc = (Sigma K (fun l => a l * nth i (nth l V []) 0) + s * nth i y 0)%Qc.
Proof.
  intros O H. unfold gram_schmidt in H.
  apply bind_inv in H. destruct H as (i1 & H1 & H). apply bind_inv in H. destruct H as (x1 & H2 & H).
  apply bind_inv in H. destruct H as (i2 & H3 & H). apply bind_inv in H. destruct H as (x2 & H4 & H).
  apply bind_inv in H. destruct H as (q & H5 & H). apply bind_inv in H. destruct H as (inv & H6 & H).
  assert (NP : 0 < N) by (apply gemm_t_inv in H1; tauto).
  destruct (gs_pass _ _ _ _ _ _ H1 H2) as [L1 P1]. destruct (gs_pass _ _ _ _ _ _ H3 H4) as [L2 P2].
  pose proof (gs_pass_orth _ _ _ _ _ O P1) as O1.
  apply dot_inv in H5. apply fdiv_inv in H6. destruct H6 as [NZ ->]. apply scal_inv in H. destruct H as [L P].
  assert (P2' : forall i, i < N -> nth i x2 0%Qc = nth i x1 0%Qc).
  { intros i Hi. rewrite P2 by exact Hi. rewrite (Sigma_ext K _ (fun _ => 0%Qc)); [unfold Sigma; rewrite sum_zero by reflexivity; ring|].
    intros l Hl. rewrite O1 by exact Hl. ring. }
  split; [exact NP|]. split; [exact L|]. split.
  - intros l Hl.
    rewrite (dot_ext_r N _ y (map (fun v => 1 / root q * v)%Qc x2)).
    + unfold dot. rewrite (Sigma_ext N _ (fun i => 1 / root q * (nth i (nth l V []) 0 * nth i x1 0))%Qc).
      * rewrite Sigma_scale. fold (dot N (nth l V []) x1). rewrite O1 by exact Hl. ring.
      * intros i Hi. rewrite (nth_indep (map _ _) _ (1 / root q * 0)%Qc) by (rewrite map_length; lia).
        rewrite map_nth, P2' by exact Hi. ring.
    + intros i Hi. rewrite (nth_indep (map _ _) _ (1 / root q * 0)%Qc) by (rewrite map_length; lia). rewrite map_nth. apply P. exact Hi.
  - exists q, (root q), (fun l => dot N (nth l V []) x). repeat split; [exact NZ| |].
    + assert (E : dot N y y = (1 / root q * (1 / root q) * dot N x2 x2)%Qc).
      { unfold dot. rewrite <- Sigma_scale. apply Sigma_ext. intros i Hi. rewrite P by exact Hi. ring. }
      rewrite E, <- H5. field. exact NZ.
    + intros i Hi. rewrite P, P2', P1 by exact Hi.
      rewrite (Sigma_ext K (fun l => dot N (nth l V []) x * nth i (nth l V []) 0)%Qc (fun l => nth i (nth l V []) 0 * dot N (nth l V []) x)%Qc) by (intros; ring).
      field. exact NZ.
Qed.
