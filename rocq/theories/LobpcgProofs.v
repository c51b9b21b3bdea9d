(** Kernels of the block eigensolver: rotation, projection, Cholesky QR. *)
From Coq Require Import QArith Qcanon Lqa.
From Verif Require Import Base SD Sums Ham Asci AsciSort Mem MemProofs DenseSpec DenseProofs DiisSpec DiisProofs DiisProofs2 DavSpec DavProofs DavProofs2 DavProofs3 ExpandProofs Lobpcg LobpcgSpec.
Local Open Scope nat_scope.

Lemma c_dot_dot N x y : c_dot N x y = dot N x y. Proof. reflexivity. Qed.
Lemma nth_seq_map n f i : i < n -> nth i (map f (seq 0 n)) 0%Qc = f i.
Proof. intros H. rewrite (nth_indep _ _ (f 0)) by (rewrite map_length, seq_length; exact H). rewrite map_nth, seq_nth by exact H. reflexivity. Qed.
Lemma nth_map_cols {A} (f : A -> list Qc) l d i : i < length l -> nth i (map f l) [] = f (nth i l d).
Proof. intros H. rewrite (nth_indep _ _ (f d)) by (rewrite map_length; exact H). apply map_nth. Qed.
Lemma columns_nth n k V j : columns n k V -> j < k -> length (nth j V []) = n.
Proof. intros (L & H) Hj. apply H, nth_In. lia. Qed.
Lemma columns_app n a b U V : columns n a U -> columns n b V -> columns n (a + b) (U ++ V).
Proof. intros (L & H) (L' & H'). split; [rewrite app_length; lia|]. intros c I. apply in_app_or in I. destruct I; auto. Qed.
Lemma firstn_In {A} (l : list A) a c : In c (firstn a l) -> In c l.
Proof. intros I. rewrite <- (firstn_skipn a l). apply in_or_app. left. exact I. Qed.
Lemma Sigma_S n f : (Sigma (S n) f = Sigma n f + f n)%Qc.
Proof. unfold Sigma. rewrite seq_S, sum_app. cbn. ring. Qed.
Lemma columns_firstn n k V a : columns n k V -> a <= k -> columns n a (firstn a V).
Proof. intros (L & H) Ha. split; [rewrite firstn_length; lia|]. intros c I. apply H. eapply firstn_In; exact I. Qed.
Lemma skipn_In {A} (l : list A) a c : In c (skipn a l) -> In c l.
Proof. intros I. rewrite <- (firstn_skipn a l). apply in_or_app. right. exact I. Qed.
Lemma columns_skipn n k V a : columns n k V -> columns n (k - a) (skipn a V).
Proof. intros (L & H). split; [rewrite skipn_length; lia|]. intros c I. apply H. eapply skipn_In; exact I. Qed.

Lemma gemv_length N X c : length (gemv_nn N X c) = N.
Proof. unfold gemv_nn. rewrite map_length, seq_length. reflexivity. Qed.
Lemma gemv_nth N X c m : m < N -> nth m (gemv_nn N X c) 0%Qc = Sigma (length X) (fun l => nth m (nth l X []) 0 * nth l c 0)%Qc.
Proof. intros H. unfold gemv_nn. rewrite nth_seq_map by exact H. reflexivity. Qed.
Lemma dot_comm N x y : dot N x y = dot N y x.
Proof. apply Sigma_ext. intros. ring. Qed.
Lemma dot_gemv_r N X c w : dot N w (gemv_nn N X c) = Sigma (length X) (fun l => nth l c 0 * dot N w (nth l X []))%Qc.
Proof. apply (dot_lin_r N (length X) w X (fun l => nth l c 0%Qc)). intros i Hi. apply gemv_nth. exact Hi. Qed.
Lemma dot_gemv_orth N X c d : orthonormal N (length X) X -> dot N (gemv_nn N X c) (gemv_nn N X d) = dot (length X) c d.
Proof.
  intros O. rewrite dot_gemv_r. rewrite (Sigma_ext _ _ (fun l => nth l c 0 * nth l d 0)%Qc); [reflexivity|]. intros l Hl.
  rewrite dot_comm, dot_gemv_r. rewrite (Sigma_ext _ _ (fun l' => (if l' =? l then 1 else 0) * nth l' c 0)%Qc).
  - rewrite Sigma_delta by exact Hl. ring.
  - intros l' Hl'. rewrite O by assumption. rewrite (Nat.eqb_sym l l'). destruct (l' =? l); ring.
Qed.
Lemma rotate_columns N X C k : length C = k -> columns N k (rotate_basis N X C).
Proof. intros L. split; [unfold rotate_basis; rewrite map_length; exact L|]. intros c I. unfold rotate_basis in I. apply in_map_iff in I. destruct I as (d & <- & _). apply gemv_length. Qed.
Lemma rotate_nth N X C j : j < length C -> nth j (rotate_basis N X C) [] = gemv_nn N X (nth j C []).
Proof. intros H. unfold rotate_basis. apply nth_map_cols. exact H. Qed.
Lemma rotate_orth N X C k : orthonormal N (length X) X -> length C = k -> orthonormal (length X) k C -> orthonormal N k (rotate_basis N X C).
Proof. intros O L OC a b Ha Hb. rewrite !rotate_nth by lia. rewrite dot_gemv_orth by exact O. apply OC; assumption. Qed.
Lemma image_rotate N A X AX C : image N A X AX -> image N A (rotate_basis N X C) (rotate_basis N AX C).
Proof.
  intros (L & H). split; [unfold rotate_basis; rewrite !map_length; reflexivity|]. intros j Hj. unfold rotate_basis in Hj. rewrite map_length in Hj.
  rewrite (rotate_nth N X C j Hj). unfold entry. rewrite (rotate_nth N AX C j Hj). split; [apply gemv_length|]. intros i Hi. rewrite gemv_nth by exact Hi. rewrite L.
  rewrite (matvec_lin N A (length X) X (fun l => nth l (nth j C []) 0%Qc)) by (intros m Hm; apply gemv_nth; exact Hm). apply Sigma_ext. intros l Hl. destruct (H l Hl) as (_ & E). unfold entry in E. rewrite E by exact Hi. reflexivity.
Qed.
Lemma image_app N A X AX Y AY : image N A X AX -> image N A Y AY -> image N A (X ++ Y) (AX ++ AY).
Proof.
  intros (L & H) (L' & H'). split; [rewrite !app_length; lia|]. intros j Hj. rewrite app_length in Hj. unfold entry. destruct (Nat.lt_ge_cases j (length X)) as [Hl|Hl].
  - rewrite !app_nth1 by lia. exact (H j Hl).
  - rewrite !app_nth2 by lia. rewrite L. exact (H' (j - length X) ltac:(lia)).
Qed.
Lemma nth_firstn_lt {B} (l : list B) k j d : j < k -> nth j (firstn k l) d = nth j l d.
Proof. revert k j. induction l as [|x l IH]; intros [|k] [|j] H; cbn; try lia; try reflexivity. apply IH. lia. Qed.
Lemma nth_skipn_add {B} (l : list B) k j d : nth j (skipn k l) d = nth (k + j) l d.
Proof. revert l. induction k as [|k IH]; intros [|x l]; cbn; try reflexivity; [destruct j; reflexivity|apply IH]. Qed.
Lemma image_firstn N A X AX k : image N A X AX -> image N A (firstn k X) (firstn k AX).
Proof.
  intros (L & H). split; [rewrite !firstn_length; lia|]. intros j Hj. rewrite firstn_length in Hj. unfold entry. rewrite !nth_firstn_lt by lia. exact (H j ltac:(lia)).
Qed.
Lemma image_skipn N A X AX k : image N A X AX -> image N A (skipn k X) (skipn k AX).
Proof.
  intros (L & H). split; [rewrite !skipn_length; lia|]. intros j Hj. rewrite skipn_length in Hj. unfold entry. rewrite !nth_skipn_add. exact (H (k + j) ltac:(lia)).
Qed.
Lemma orth_firstn N k X a : orthonormal N k X -> a <= k -> orthonormal N a (firstn a X).
Proof. intros O H i j Hi Hj. rewrite !nth_firstn_lt by lia. apply O; lia. Qed.
Lemma orth_app N a b X W : length X = a -> orthonormal N a X -> orthonormal N b W -> (forall i j, i < a -> j < b -> dot N (nth i X []) (nth j W []) = 0%Qc) -> orthonormal N (a + b) (X ++ W).
Proof.
  intros L OX OW Z i j Hi Hj. destruct (Nat.lt_ge_cases i a) as [Li|Li], (Nat.lt_ge_cases j a) as [Lj|Lj].
  - rewrite !app_nth1 by lia. apply OX; assumption.
  - rewrite (app_nth1 X W) by lia. rewrite app_nth2 by lia. rewrite Z by lia. destruct (Nat.eqb_spec i j); [lia|reflexivity].
  - rewrite (app_nth2 X W) by lia. rewrite app_nth1 by lia. rewrite dot_comm, Z by lia. destruct (Nat.eqb_spec i j); [lia|reflexivity].
  - rewrite !app_nth2 by lia. rewrite L. rewrite OW by lia. destruct (Nat.eqb_spec (i - a) (j - a)), (Nat.eqb_spec i j); try lia; reflexivity.
Qed.

(** ** projection *)
Lemma project_columns N XP W k : columns N k W -> columns N k (project N XP W).
Proof. intros (L & H). split; [unfold project; rewrite map_length; exact L|]. intros c I. unfold project in I. apply in_map_iff in I. destruct I as (w & <- & _). rewrite map_length, seq_length. reflexivity. Qed.
Lemma project_orth N XP W k : orthonormal N (length XP) XP -> columns N k W -> forall a j, a < length XP -> j < k -> dot N (nth a XP []) (nth j (project N XP W) []) = 0%Qc.
Proof.
  intros O (L & H) a j Ha Hj. unfold project. rewrite (nth_map_cols _ W [] j) by lia. set (w := nth j W []).
  apply (gs_pass_orth N (length XP) XP w); [exact O| |exact Ha]. intros i Hi. rewrite nth_seq_map by exact Hi. rewrite gemv_nth by exact Hi. f_equal. apply Sigma_ext. intros l Hl. apply (f_equal (Qcmult _)).
  rewrite (nth_indep _ 0%Qc (c_dot N [] w)) by (rewrite map_length; exact Hl). rewrite (map_nth (fun x => c_dot N x w)). reflexivity.
Qed.

(** ** Cholesky QR *)
Lemma gram_columns N V k : length V = k -> columns k k (gemm_ct N V V).
Proof. intros L. split; [unfold gemm_ct; rewrite map_length; exact L|]. intros c I. unfold gemm_ct in I. apply in_map_iff in I. destruct I as (w & <- & _). rewrite map_length. exact L. Qed.
Lemma gemm_ct_entry N X Y i j : i < length X -> j < length Y -> entry (gemm_ct N X Y) i j = dot N (nth i X []) (nth j Y []).
Proof.
  intros Hi Hj. unfold entry, gemm_ct. rewrite (nth_map_cols _ Y [] j Hj). rewrite (nth_indep _ 0%Qc (c_dot N [] (nth j Y []))) by (rewrite map_length; exact Hi). rewrite (map_nth (fun x => c_dot N x (nth j Y []))). reflexivity.
Qed.
Lemma trsm_prefix N L V : forall k U, k <= length V -> foldM (seq 0 k) (fun U j =>
    do u <- mapM (fun m => fdiv (nth m (nth j V []) 0 - sum (seq 0 j) (fun l => nth j (nth l L []) 0 * nth m (nth l U []) 0))%Qc (nth j (nth j L []) 0%Qc)) (seq 0 N);
    Ok (U ++ [u])) [] = Ok U ->
  columns N k U /\ forall j m, j < k -> m < N -> (entry L j j * nth m (nth j U []) 0 = nth m (nth j V []) 0 - Sigma j (fun l => entry L j l * nth m (nth l U []) 0))%Qc.
Proof.
  induction k as [|k IH]; intros U Hk H.
  - cbn in H. injection H as <-. split; [split; [reflexivity|intros c []]|lia].
  - rewrite seq_S, foldM_app in H. apply bind_inv in H. destruct H as (U0 & F & H). apply IH in F; [|lia]. destruct F as ((L0 & C0) & E0). cbn [foldM Nat.add] in H.
    apply bind_inv in H. destruct H as (U1 & H & X). injection X as <-. apply bind_inv in H. destruct H as (u & Hu & X). injection X as <-.
    pose proof (mapM_seq_inv _ N u 0%Qc Hu) as (Lu & Eu). split.
    + split; [rewrite app_length; cbn; lia|]. intros c I. apply in_app_or in I. destruct I as [I|[<-|[]]]; [apply C0; exact I|exact Lu].
    + intros j m Hj Hm. destruct (Nat.eq_dec j k) as [->|ne].
      * rewrite app_nth2, L0, Nat.sub_diag by lia. cbn [nth]. specialize (Eu m Hm). apply fdiv_inv in Eu. destruct Eu as (NZ & Eu). rewrite Eu. unfold entry at 1. etransitivity; [apply Qcmult_div_r; exact NZ|]. f_equal.
        unfold Sigma. apply sum_ext. intros l Hl. apply in_seq in Hl. unfold entry. rewrite app_nth1 by lia. reflexivity.
      * rewrite app_nth1 by lia. rewrite E0 by lia. f_equal. apply Sigma_ext. intros l Hl. rewrite app_nth1 by lia. reflexivity.
Qed.
Lemma trsm_inv N L V U : trsm N L V = Ok U -> columns N (length V) U /\
  forall j m, j < length V -> m < N -> (entry L j j * nth m (nth j U []) 0 = nth m (nth j V []) 0 - Sigma j (fun l => entry L j l * nth m (nth l U []) 0))%Qc.
Proof. intros H. apply (trsm_prefix N L V (length V) U (le_n _) H). Qed.
Lemma trsm_dot N L V U x j : trsm N L V = Ok U -> j < length V ->
  (entry L j j * dot N x (nth j U []) = dot N x (nth j V []) - Sigma j (fun l => entry L j l * dot N x (nth l U [])))%Qc.
Proof.
  intros H Hj. apply trsm_inv in H. destruct H as (_ & E). unfold dot. rewrite <- Sigma_scale.
  rewrite (Sigma_ext N _ (fun m => nth m x 0 * nth m (nth j V []) 0 - Sigma j (fun l => entry L j l * (nth m x 0 * nth m (nth l U []) 0)))%Qc).
  - rewrite Sigma_minus. f_equal. rewrite Sigma_swap. apply Sigma_ext. intros l Hl. rewrite Sigma_scale. reflexivity.
  - intros m Hm. transitivity (nth m x 0 * (entry L j j * nth m (nth j U []) 0))%Qc; [ring|]. rewrite E by assumption.
    rewrite (Sigma_ext j (fun l => entry L j l * (nth m x 0 * nth m (nth l U []) 0))%Qc (fun l => nth m x 0 * (entry L j l * nth m (nth l U []) 0))%Qc) by (intros; ring). rewrite Sigma_scale. ring.
Qed.
Lemma cancel_l a x y : a <> 0%Qc -> (a * x = a * y)%Qc -> x = y.
Proof. intros NZ E. transitivity (a * x / a)%Qc; [field; exact NZ|]. rewrite E. field. exact NZ. Qed.
Lemma trsm_zero N L V U x : trsm N L V = Ok U -> (forall i, i < length V -> entry L i i <> 0%Qc) -> (forall j, j < length V -> dot N x (nth j V []) = 0%Qc) ->
  forall j, j < length V -> dot N x (nth j U []) = 0%Qc.
Proof.
  intros H NZ Z j. induction j as [j IH] using lt_wf_ind. intros Hj. apply (cancel_l (entry L j j)); [apply NZ; exact Hj|]. rewrite (trsm_dot N L V U x j H Hj). rewrite Z by exact Hj.
  rewrite (Sigma_ext j _ (fun _ => 0)%Qc) by (intros l Hl; rewrite IH by lia; ring). rewrite LinRespProofs.Sigma_0. ring.
Qed.
Lemma trsm_orth N potrf V L U : cholesky potrf -> potrf (length V) (gemm_ct N V V) = Ok L -> trsm N L V = Ok U ->
  orthonormal N (length V) U /\ (forall i, i < length V -> entry L i i <> 0%Qc).
Proof.
  intros CH P T. destruct (CH _ _ _ P (gram_columns N V _ eq_refl)) as (NZ & F).
  { intros i j Hi Hj. rewrite !gemm_ct_entry by assumption. apply dot_comm. }
  split; [|exact NZ].
  (* u_i . v_j = L_ji for i <= j *)
  assert (UV : forall i j, i <= j -> j < length V -> dot N (nth i U []) (nth j V []) = entry L j i).
  { intros i. induction i as [i IH] using lt_wf_ind. intros j Hij Hj. apply (cancel_l (entry L i i)); [apply NZ; lia|]. rewrite dot_comm. rewrite (trsm_dot N L V U _ i T ltac:(lia)).
    rewrite (Sigma_ext i _ (fun l => entry L j l * entry L i l)%Qc) by (intros l Hl; rewrite dot_comm, IH by lia; ring).
    pose proof (F j i Hij Hj) as Fj. rewrite gemm_ct_entry in Fj by lia. rewrite <- Fj. rewrite Sigma_S. ring. }
  assert (UU : forall j i, i <= j -> j < length V -> dot N (nth i U []) (nth j U []) = if i =? j then 1%Qc else 0%Qc).
  { intros j. induction j as [j IH] using lt_wf_ind. intros i Hij Hj. 
    assert (LT : forall i, i < j -> dot N (nth i U []) (nth j U []) = 0%Qc).
    { intros i' Hi'. apply (cancel_l (entry L j j)); [apply NZ; exact Hj|]. rewrite (trsm_dot N L V U _ j T Hj). rewrite UV by lia.
      rewrite (Sigma_ext j _ (fun l => (if l =? i' then 1 else 0) * entry L j l)%Qc).
      - rewrite Sigma_delta by exact Hi'. ring.
      - intros l Hl. destruct (Nat.le_gt_cases i' l) as [Le|Gt].
        + rewrite IH by lia. rewrite (Nat.eqb_sym i' l). destruct (l =? i'); ring.
        + rewrite dot_comm, IH by lia. destruct (l =? i'); ring. }
    destruct (Nat.eqb_spec i j) as [->|ne]; [|apply LT; lia]. apply (cancel_l (entry L j j)); [apply NZ; exact Hj|]. rewrite (trsm_dot N L V U _ j T Hj). rewrite UV by lia.
    rewrite (Sigma_ext j _ (fun _ => 0)%Qc) by (intros l Hl; rewrite dot_comm, LT by lia; ring). rewrite LinRespProofs.Sigma_0. ring. }
  intros a b Ha Hb. destruct (Nat.le_gt_cases a b) as [Le|Gt]; [apply UU; assumption|]. rewrite dot_comm, UU by lia. rewrite Nat.eqb_sym. reflexivity.
Qed.
Lemma cholqr_inv N K potrf V U reps : cholesky potrf -> length V = K -> 0 < reps -> cholqr potrf N K V reps = Ok U ->
  columns N K U /\ orthonormal N K U /\ forall x, (forall j, j < K -> dot N x (nth j V []) = 0%Qc) -> forall j, j < K -> dot N x (nth j U []) = 0%Qc.
Proof.
  intros CH LV R H. unfold cholqr in H. destruct reps as [|reps]; [lia|]. clear R. revert V LV H. generalize 0 as s. induction reps as [|reps IH]; intros s V LV H.
  - cbn [seq foldM] in H. apply bind_inv in H. destruct H as (U' & H & X). injection X as <-. apply bind_inv in H. destruct H as (L & P & T). rewrite <- LV in P. destruct (trsm_orth N potrf V L U' CH P T) as (O & NZ). rewrite LV in *.
    destruct (trsm_inv N L V U' T) as (CU & _). rewrite LV in CU. split; [exact CU|]. split; [exact O|]. intros x Z j Hj. apply (trsm_zero N L V U' x T); rewrite ?LV; assumption.
  - remember (S reps) as r. cbn [seq foldM] in H. apply bind_inv in H. destruct H as (U' & H1 & H). subst r. apply bind_inv in H1. destruct H1 as (L & P & T). rewrite <- LV in P. destruct (trsm_orth N potrf V L U' CH P T) as (O & NZ). rewrite LV in *.
    destruct (trsm_inv N L V U' T) as (CU & _). rewrite LV in CU. destruct (IH (S s) U' (proj1 CU) H) as (C2 & O2 & Z2). split; [exact C2|]. split; [exact O2|]. intros x Z. apply Z2. intros j Hj. apply (trsm_zero N L V U' x T); rewrite ?LV; assumption.
Qed.
