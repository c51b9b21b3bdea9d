(** The iterations of the block eigensolver. *)
From Coq Require Import QArith Qcanon Lqa.
From Verif Require Import Base SD Sums Ham Asci AsciSort Mem MemProofs DenseSpec DenseProofs DiisSpec DiisProofs DiisProofs2 DavSpec DavProofs DavProofs2 DavProofs3 ExpandProofs RotInvProofs Lobpcg LobpcgSpec LobpcgProofs LobpcgProofs2 LobpcgProofs3.
Local Open Scope nat_scope.

Definition w_of (e : iteration) : list Qc := fst (fst e).
Lemma first_sum_firstn k K W : k <= K -> first_sum k (firstn K W) = first_sum k W.
Proof. intros H. unfold first_sum. apply Sigma_ext. intros i Hi. rewrite nth_firstn_lt by lia. reflexivity. Qed.
Lemma descend_snoc K Ws W W' : sums_descend K (Ws ++ [W]) -> (forall k, k <= K -> (first_sum k W' <= first_sum k W)%Qc) -> sums_descend K (Ws ++ [W; W']).
Proof.
  intros D H a b k Hab Hb Hk. rewrite app_length in Hb. cbn [length] in Hb.
  assert (NA : forall j, j <= length Ws -> nth j (Ws ++ [W; W']) [] = nth j (Ws ++ [W]) []).
  { intros j Hj. destruct (Nat.eq_dec j (length Ws)) as [->|ne]; [rewrite !app_nth2, Nat.sub_diag by lia; reflexivity|]. rewrite !app_nth1 by lia. reflexivity. }
  assert (NB : nth (S (length Ws)) (Ws ++ [W; W']) [] = W') by (rewrite app_nth2 by lia; replace (S (length Ws) - length Ws) with 1 by lia; reflexivity).
  destruct (Nat.eq_dec b (S (length Ws))) as [->|ne].
  - destruct (Nat.eq_dec a (S (length Ws))) as [->|na]; [apply Qcle_refl|]. rewrite NB, NA by lia. eapply Qcle_trans; [apply H; exact Hk|].
    assert (E : nth (length Ws) (Ws ++ [W]) [] = W) by (rewrite app_nth2, Nat.sub_diag by lia; reflexivity). rewrite <- E at 1. apply D; [lia|rewrite app_length; cbn; lia|exact Hk].
  - rewrite !NA by lia. apply D; [exact Hab|rewrite app_length; cbn; lia|exact Hk].
Qed.
Lemma descend_replace K Ws W W' : sums_descend K (Ws ++ [W]) -> (forall k, k <= K -> (first_sum k W' <= first_sum k W)%Qc) -> sums_descend K (Ws ++ [W']).
Proof.
  intros D H. pose proof (descend_snoc K Ws W W' D H) as E. intros a b k Hab Hb Hk. rewrite app_length in Hb. cbn [length] in Hb.
  assert (NA : forall j, j < length Ws -> nth j (Ws ++ [W']) [] = nth j (Ws ++ [W; W']) []) by (intros j Hj; rewrite !app_nth1 by lia; reflexivity).
  assert (NB : nth (length Ws) (Ws ++ [W']) [] = nth (S (length Ws)) (Ws ++ [W; W']) []) by (rewrite !app_nth2 by lia; replace (S (length Ws) - length Ws) with 1 by lia; rewrite Nat.sub_diag; reflexivity).
  destruct (Nat.eq_dec b (length Ws)) as [->|ne].
  - destruct (Nat.eq_dec a (length Ws)) as [->|na]; [apply Qcle_refl|]. rewrite NB, NA by lia. apply E; [lia|rewrite app_length; cbn; lia|exact Hk].
  - rewrite !NA by lia. apply E; [exact Hab|rewrite app_length; cbn; lia|exact Hk].
Qed.
Lemma descend_prefix K Ws W : sums_descend K (Ws ++ [W]) -> sums_descend K Ws.
Proof.
  intros D a b k Hab Hb Hk. specialize (D a b k Hab ltac:(rewrite app_length; lia) Hk). rewrite !app_nth1 in D by lia. exact D.
Qed.

Ltac spl := lazymatch goal with |- _ /\ _ => split; [|spl] | _ => idtac end.
Section RUN.
  Variables (N K : nat) (A : nat -> nat -> Qc) (root : Qc -> Qc) (syev : nat -> matrix -> res (list Qc * matrix)) (potrf : nat -> matrix -> res matrix) (gelqf : nat -> nat -> matrix -> res matrix) (op kop : matrix -> res matrix) (check : nat -> list Qc -> list Qc -> Qc -> bool).
  Hypotheses (SA : symmetric2 N A) (SY : diagonaliser syev) (CH : cholesky potrf) (LQ : orthogonal_factor gelqf) (OP : multiplies_blocks N A op) (KO : keeps_shape N kop).
  Variable sett : lobpcg_settings.
  Let track := l_track_convergence sett.

  Lemma linv_conv pk st c : linv N K A root pk st -> linv N K A root pk (mk_l_state (s_X st) (s_P st) (s_AX st) (s_AP st) (s_LAM st) (s_V st) (s_ABS st) (s_REL st) c).
  Proof. intros []. constructor; assumption. Qed.
  Lemma loop_inv NR : forall left iter st o, linv N K A root (if iter =? 0 then 0 else K) st -> sums_descend K (map w_of (s_conv st) ++ [s_LAM st]) ->
    (forall e, In e (s_conv st) -> length (w_of e) = K) -> (track = false -> s_conv st = []) ->
    l_loop root syev potrf gelqf op kop check sett N K NR left iter st = Ok o ->
    exists pk st' b, o = output b NR st' /\ linv N K A root pk st' /\ (b = true -> check NR (s_ABS st') (s_REL st') (l_conv_tol sett) = true) /\
      (forall k, k <= K -> (first_sum k (s_LAM st') <= first_sum k (s_LAM st))%Qc) /\
      sums_descend K (map w_of (s_conv st') ++ [s_LAM st']) /\ (forall e, In e (s_conv st') -> length (w_of e) = K) /\ (track = false -> s_conv st' = []) /\
      length (s_conv st') <= length (s_conv st) + left /\ (b = false -> track = true -> length (s_conv st') = length (s_conv st) + left).
  Proof.
    induction left as [|left IH]; intros iter st o I D LE TF H; cbn [l_loop] in H.
    - injection H as <-. exists (if iter =? 0 then 0 else K), st, false. spl; try assumption; try reflexivity; try discriminate; try lia. intros; apply Qcle_refl.
    - set (st1 := if l_track_convergence sett then _ else st) in H.
      assert (I1 : linv N K A root (if iter =? 0 then 0 else K) st1) by (unfold st1; destruct (l_track_convergence sett); [apply linv_conv|]; exact I).
      assert (L1 : s_LAM st1 = s_LAM st) by (unfold st1; destruct (l_track_convergence sett); reflexivity).
      assert (D1 : sums_descend K (map w_of (s_conv st1) ++ [s_LAM st1])).
      { rewrite L1. unfold st1. destruct (l_track_convergence sett); [|exact D]. cbn [s_conv]. rewrite map_app. cbn [map w_of fst]. rewrite <- app_assoc. cbn [app]. apply descend_snoc.
        - eapply descend_replace; [exact D|]. intros k Hk. rewrite first_sum_firstn by exact Hk. apply Qcle_refl.
        - intros k Hk. rewrite first_sum_firstn by exact Hk. apply Qcle_refl. }
      assert (LE1 : forall e, In e (s_conv st1) -> length (w_of e) = K).
      { unfold st1. destruct (l_track_convergence sett); [|exact LE]. cbn [s_conv]. intros e Ie. apply in_app_or in Ie. destruct Ie as [Ie|[<-|[]]]; [apply LE; exact Ie|]. cbn [w_of fst]. rewrite firstn_length. pose proof (li_L _ _ _ _ _ _ I). lia. }
      assert (TF1 : track = false -> s_conv st1 = []) by (unfold st1, track in *; intros T; rewrite T in *; apply TF; reflexivity).
      assert (LN : length (s_conv st1) <= length (s_conv st) + 1) by (unfold st1; destruct (l_track_convergence sett); cbn [s_conv]; rewrite ?app_length; cbn; lia).
      assert (LT : track = true -> length (s_conv st1) = length (s_conv st) + 1) by (unfold st1, track; intros ->; cbn [s_conv]; rewrite app_length; cbn; lia).
      clearbody st1. destruct (K <? NR); [discriminate|]. destruct (check NR (s_ABS st1) (s_REL st1) (l_conv_tol sett)) eqn:CK.
      + injection H as <-. exists (if iter =? 0 then 0 else K), st1, true. spl; try assumption; try reflexivity; try discriminate; try lia; auto. rewrite L1. intros; apply Qcle_refl.
      + apply bind_inv in H. destruct H as (st2 & H2 & H). destruct (step_inv N K A root syev potrf gelqf op kop SA SY CH LQ OP KO iter st1 st2 I1 H2) as (I2 & C2 & M2).
        apply IH in H; cbn [Nat.eqb]; [|exact I2|rewrite C2; eapply descend_replace; [exact D1|exact M2]|rewrite C2; exact LE1|rewrite C2; exact TF1].
        destruct H as (pk & st' & b & E & I' & B & M & D' & LE' & TF' & LN' & LT'). exists pk, st', b. rewrite C2 in *. spl; try assumption; try lia.
        * intros k Hk. eapply Qcle_trans; [apply M; exact Hk|]. rewrite <- L1. apply M2. exact Hk.
        * intros Hb T. rewrite LT' by assumption. rewrite LT by exact T. lia.
  Qed.
  Lemma run_inv NR V LWORK o : columns N K V -> orthonormal N K V -> lobpcg root syev potrf gelqf op kop check sett N K NR V LWORK = Ok (inr o) ->
    exists pk st' b, o = output b NR st' /\ linv N K A root pk st' /\ (b = true -> check NR (s_ABS st') (s_REL st') (l_conv_tol sett) = true) /\
      (forall k X, k <= K -> length X = k -> orthonormal K k X -> (first_sum k (s_LAM st') <= Sigma k (fun i => expectation N A (gemv_nn N V (nth i X []))))%Qc) /\
      sums_descend K (map w_of (s_conv st')) /\ (forall e, In e (s_conv st') -> length (w_of e) = K) /\ (track = false -> s_conv st' = []) /\
      length (s_conv st') <= Z.to_nat (l_maxiter sett) /\ (b = false -> track = true -> length (s_conv st') = Z.to_nat (l_maxiter sett)).
  Proof.
    intros CV OV H. unfold lobpcg in H. cbv zeta in H. repeat match type of H with (if ?b then _ else _) = _ => destruct b; [discriminate|] end.
    apply bind_inv in H. destruct H as (st & HS & H). apply bind_inv in H. destruct H as (o' & HL & X). injection X as <-.
    destruct (start_inv N K A root syev op SA SY OP V st CV OV HS) as (I & C0 & G).
    apply loop_inv in HL; [|exact I|rewrite C0; intros a b k Hab Hb Hk; cbn in Hb; replace a with b by lia; apply Qcle_refl|rewrite C0; intros ? []|intros; exact C0].
    destruct HL as (pk & st' & b & E & I' & B & M & D' & LE' & TF' & LN' & LT'). rewrite C0 in *. exists pk, st', b. spl; try assumption.
    - intros k X Hk LX OX. eapply Qcle_trans; [apply M; exact Hk|apply G; assumption].
    - eapply descend_prefix; exact D'.
  Qed.
End RUN.
