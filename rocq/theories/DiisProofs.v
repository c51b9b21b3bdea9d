(** Proofs about Diis.v. *)
From Coq Require Import QArith Qcanon Bool Lia.
From Verif Require Import Base Sums Ham Asci HamProofs Mem MemProofs Dense DenseSpec DenseProofs FockMatProofs RotProofs LinRespProofs Diis DiisSpec.
Local Open Scope nat_scope.

(** * history *)
Lemma lastn_all {A} n (l : list A) : length l <= n -> lastn n l = l.
Proof. intros H. unfold lastn. replace (length l - n) with 0 by lia. reflexivity. Qed.
Lemma lastn_length {A} n (l : list A) : length (lastn n l) = Nat.min n (length l).
Proof. unfold lastn. rewrite skipn_length. lia. Qed.
Lemma lastn_snoc_full {A} n (l : list A) x : n <= length l -> 0 < n -> lastn n (l ++ [x]) = skipn 1 (lastn n l) ++ [x].
Proof.
  intros H Hn. unfold lastn. rewrite app_length. cbn [length]. rewrite skipn_app.
  replace (length l + 1 - n - length l) with 0 by lia. cbn [skipn]. f_equal.
  replace (length l + 1 - n) with (S (length l - n)) by lia. generalize (length l - n). clear.
  intros a. revert l. induction a as [|a IH]; intros [|y l]; cbn; auto. exact (IH l).
Qed.
Lemma add_vector_full n l v e : 0 < n -> length l = n ->
  add_vector (mk_diis n l) v e = Ok (mk_diis n (skipn 1 l ++ [(v, e)])).
Proof.
  intros Hn Hl. unfold add_vector. cbn [diis_pairs ndiis_max]. rewrite Hl, Nat.ltb_irrefl.
  destruct l as [|p r]; [cbn in Hl; lia|]. cbn [length] in Hl. cbn [skipn].
  rewrite put_ok by (rewrite app_length; cbn; lia). cbn [bind]. do 2 f_equal.
  replace (n - 1) with (length r) by lia. clear. set (y := last (p :: r) ([], [])). clearbody y.
  induction r as [|a r IH]; cbn; [reflexivity|]. f_equal. exact IH.
Qed.
Lemma add_all_ok n h : 0 < n -> forall h0, add_all (mk_diis n (lastn n h0)) h = Ok (mk_diis n (lastn n (h0 ++ h))).
Proof.
  intros Hn. induction h as [|[v e] h IH]; intros h0.
  - rewrite app_nil_r. reflexivity.
  - unfold add_all. cbn [foldM fst snd].
    assert (E : add_vector (mk_diis n (lastn n h0)) v e = Ok (mk_diis n (lastn n (h0 ++ [(v, e)])))).
    { destruct (Nat.lt_ge_cases (length h0) n) as [H|H].
      - unfold add_vector. cbn [diis_pairs ndiis_max]. rewrite lastn_length. replace (Nat.min n (length h0) <? n) with true by (symmetry; apply Nat.ltb_lt; lia).
        rewrite (lastn_all n h0) by lia. rewrite lastn_all by (rewrite app_length; cbn; lia). reflexivity.
      - rewrite add_vector_full; [|auto|rewrite lastn_length; lia]. rewrite <- lastn_snoc_full; auto. }
    rewrite E. cbn [bind]. fold (add_all (mk_diis n (lastn n (h0 ++ [(v, e)]))) h). rewrite IH, <- app_assoc. reflexivity.
Qed.
Lemma history_ok n h : 0 < n -> add_all (diis_new n) h = Ok (mk_diis n (lastn n h)).
Proof. intros Hn. unfold diis_new. rewrite <- (app_nil_l h). rewrite <- (add_all_ok n h Hn []). reflexivity. Qed.
Lemma history_zero v e h : add_all (diis_new 0) ((v, e) :: h) = Err UB.
Proof. reflexivity. Qed.

(** * the linear system *)
Lemma puts_app w1 w2 : forall s h, puts s (w1 ++ w2) h = do s' <- puts s w1 h; puts s' w2 h.
Proof. induction w1 as [|x r IH]; intros s h; cbn [app puts bind]; [reflexivity|]. destruct (put s x (h x)); cbn [bind]; auto. Qed.
Lemma put_len {A} (s : list A) x v s' : put s x v = Ok s' -> length s' = length s.
Proof. intros H. apply put_inv in H. destruct H as [-> _]. apply upd_length. Qed.
Lemma puts_len w : forall s h s', puts s w h = Ok s' -> length s' = length s.
Proof.
  induction w as [|x r IH]; intros s h s' H; cbn [puts] in H; [congruence|].
  destruct (put s x (h x)) as [s1|] eqn:E; cbn [bind] in H; [|discriminate]. apply IH in H. rewrite H. eapply put_len; eauto.
Qed.
Lemma foldM_puts {I} (l : list I) w h f L : (forall s e, In e l -> length s = L -> f s e = puts s (w e) h) ->
  forall s, length s = L -> foldM l f s = puts s (flat_map w l) h.
Proof.
  induction l as [|e l IH]; intros H s Hs; cbn [foldM flat_map puts]; [reflexivity|].
  rewrite puts_app, H by (cbn; auto). destruct (puts s (w e) h) as [s'|] eqn:E; cbn [bind]; [|reflexivity].
  apply IH; [intros; apply H; cbn; auto|]. apply puts_len in E. congruence.
Qed.
Lemma dot__ok n x y : n <= length x -> n <= length y -> dot_ n x y = Ok (dot n x y).
Proof.
  intros Hx Hy. unfold dot_, dot, Sigma.
  rewrite (sumM_ok (seq 0 n) _ (fun m => nth m x 0 * nth m y 0)%Qc 0%Qc).
  - f_equal. ring.
  - intros m Hm. apply in_seq in Hm. rewrite (at_ok x m 0%Qc), (at_ok y m 0%Qc) by lia. reflexivity.
Qed.
Lemma dot_comm n x y : dot n x y = dot n y x. Proof. apply Sigma_ext. intros. ring. Qed.
Lemma axpy_ok n a x y : n <= length x -> length y = n ->
  exists z, axpy n a x y = Ok z /\ length z = n /\ forall m, m < n -> nth m z 0%Qc = (nth m y 0 + a * nth m x 0)%Qc.
Proof.
  intros Hx Hy. unfold axpy.
  destruct (foldM_cells 0%Qc (fun y m => do u <- at_ x m; do w <- at_ y m; put y m (w + a * u)%Qc) (fun m => m) (fun m w => (w + a * nth m x 0)%Qc) (seq 0 n) y n) as [z [E [Hz [Hc _]]]].
  - exact Hy.
  - rewrite map_id. apply seq_NoDup.
  - intros i Hi. apply in_seq in Hi. lia.
  - intros s i Hi Hs. apply in_seq in Hi. rewrite (at_ok x i 0%Qc), (at_ok s i 0%Qc) by lia. cbn [bind]. rewrite put_ok by lia. reflexivity.
  - exists z. split; [exact E|]. split; [exact Hz|]. intros m Hm. apply Hc. apply in_seq. lia.
Qed.
Lemma cellmod n i j : i < n -> (i + j * n) mod n = i /\ (i + j * n) / n = j.
Proof. intros H. rewrite Nat.mod_add, Nat.div_add by lia. rewrite Nat.mod_small, Nat.div_small by lia. auto. Qed.

Section SYSTEM.
  Variables (ps : list (list Qc * list Qc)) (nv ne : nat).
  Hypothesis Hps : forall p, In p ps -> length (fst p) = nv /\ length (snd p) = ne.
  Let k := length ps.
  Let n1 := k + 1.
  Let es := map snd ps.
  Let G x := bordered_gram ne es (x mod n1) (x / n1).
  Lemma G_at i j : i < n1 -> G (i + j * n1) = bordered_gram ne es i j.
  Proof. intros H. unfold G. destruct (cellmod n1 i j H) as [-> ->]. reflexivity. Qed.
  Lemma es_len : length es = k. Proof. unfold es. apply map_length. Qed.
  Lemma nth_es i : i < k -> nth i es [] = snd (nth i ps ([], [])).
  Proof. intros H. unfold es. change (@nil Qc) with (snd (@nil Qc, @nil Qc)) at 1. apply map_nth. Qed.
  Lemma nth_in i : i < k -> In (nth i ps ([], [])) ps. Proof. intros. apply nth_In. exact H. Qed.
  Lemma gram_inner i j : i < k -> j < k -> bordered_gram ne es i j = dot ne (nth i es []) (nth j es []).
  Proof.
    intros Hi Hj. unfold bordered_gram. rewrite es_len.
    replace (i =? k) with false by (symmetry; apply Nat.eqb_neq; lia). replace (j =? k) with false by (symmetry; apply Nat.eqb_neq; lia). reflexivity.
  Qed.
  Lemma gram_build : exists B,
    (do B <- foldM (seq 0 k) (fun B i =>
      foldM (seq i (k - i)) (fun B j =>
        do pi <- at_ ps i;
        do pj <- at_ ps j;
        do val <- dot_ (length (snd pi)) (snd pi) (snd pj);
        do B <- put B (i + j * n1) val;
        if i =? j then Ok B else put B (j + i * n1) val) B) (repeat 0%Qc (n1 * n1));
     foldM (seq 0 k) (fun B i => do B <- put B (i + k * n1) 1%Qc; put B (k + i * n1) 1%Qc) B) = Ok B /\
    length B = n1 * n1 /\ forall i j, i < n1 -> j < n1 -> at2 B n1 i j = bordered_gram ne es i j.
  Proof.
    assert (Hcell : forall i j, i < n1 -> j < n1 -> i + j * n1 < n1 * n1) by (intros; apply cell; auto).
    set (w1 := fun i => flat_map (fun j => if i =? j then [i + j * n1] else [i + j * n1; j + i * n1]) (seq i (k - i))).
    destruct (scatter (seq 0 k) w1 G (fun B i => foldM (seq i (k - i)) (fun B j =>
        do pi <- at_ ps i;
        do pj <- at_ ps j;
        do val <- dot_ (length (snd pi)) (snd pi) (snd pj);
        do B <- put B (i + j * n1) val;
        if i =? j then Ok B else put B (j + i * n1) val) B) (repeat 0%Qc (n1 * n1))) as [B1 [E1 [L1 [W1 N1]]]].
    - intros i x Hi Hx. apply in_seq in Hi. rewrite repeat_length. unfold w1 in Hx. apply in_flat_map in Hx. destruct Hx as [j [Hj Hx]].
      apply in_seq in Hj. destruct (i =? j); cbn in Hx; destruct Hx as [<-|Hx]; try (apply Hcell; unfold n1; lia); [contradiction|].
      destruct Hx as [<-|[]]. apply Hcell; unfold n1; lia.
    - intros s i Hi Hs. apply in_seq in Hi. unfold w1. apply (foldM_puts _ _ _ _ (length s)); [|reflexivity].
      intros s' j Hj Hs'. apply in_seq in Hj.
      rewrite (at_ok ps i ([], [])) by (fold k; lia). cbn [bind]. rewrite (at_ok ps j ([], [])) by (fold k; lia). cbn [bind].
      destruct (Hps _ (nth_in i ltac:(lia))) as [_ Hei]. destruct (Hps _ (nth_in j ltac:(lia))) as [_ Hej].
      rewrite Hei, dot__ok by lia. cbn [bind].
      rewrite <- !nth_es by lia. destruct (Nat.eqb_spec i j) as [->|Hij].
      + cbn [puts]. rewrite G_at by (unfold n1; lia). rewrite gram_inner by lia. reflexivity.
      + cbn [puts]. rewrite !G_at by (unfold n1; lia). rewrite !gram_inner by lia.
        destruct (put s' (i + j * n1) _) as [s2|]; cbn [bind]; [|reflexivity]. rewrite dot_comm. destruct (put s2 _ _); reflexivity.
    - rewrite E1. cbn [bind]. rewrite repeat_length in L1.
      destruct (scatter (seq 0 k) (fun i => [i + k * n1; k + i * n1]) G (fun B i => do B <- put B (i + k * n1) 1%Qc; put B (k + i * n1) 1%Qc) B1) as [B2 [E2 [L2 [W2 N2]]]].
      + intros i x Hi Hx. apply in_seq in Hi. rewrite L1. destruct Hx as [<-|[<-|[]]]; apply Hcell; unfold n1; lia.
      + intros s i Hi Hs. apply in_seq in Hi. cbn [puts]. rewrite !G_at by (unfold n1; lia). unfold bordered_gram. rewrite es_len, Nat.eqb_refl.
        replace (i =? k) with false by (symmetry; apply Nat.eqb_neq; lia).
        destruct (put s (i + k * n1) 1%Qc) as [s2|]; cbn [bind]; [|reflexivity]. destruct (put s2 _ _); reflexivity.
      + exists B2. split; [exact E2|]. split; [congruence|]. intros i j Hi Hj. unfold at2.
        assert (P : forall a b, a < n1 -> b < n1 -> i + j * n1 = a + b * n1 -> i = a /\ j = b).
        { intros a b Ha Hb E. destruct (cellmod n1 i j Hi) as [M1 M2]. rewrite E in M1, M2. destruct (cellmod n1 a b Ha) as [M3 M4]. split; congruence. }
        destruct (Nat.eq_dec i k) as [->|Hik].
        * destruct (Nat.eq_dec j k) as [->|Hjk].
          -- rewrite N2. 2:{ intros a Ha [E|[E|[]]]; apply in_seq in Ha; symmetry in E; apply P in E; unfold n1 in *; lia. }
             rewrite N1. 2:{ intros a Ha Hx. apply in_seq in Ha. unfold w1 in Hx. apply in_flat_map in Hx. destruct Hx as [b [Hb Hx]]. apply in_seq in Hb.
               destruct (a =? b); cbn in Hx; destruct Hx as [E|Hx].
               - symmetry in E; apply P in E; unfold n1 in *; lia.
               - contradiction.
               - symmetry in E; apply P in E; unfold n1 in *; lia.
               - destruct Hx as [E|[]]. symmetry in E; apply P in E; unfold n1 in *; lia. }
             rewrite nth_repeat. unfold bordered_gram. rewrite es_len, Nat.eqb_refl. reflexivity.
          -- rewrite (W2 j (k + j * n1)); [apply G_at; exact Hi|apply in_seq; unfold n1 in *; lia|cbn; auto].
        * destruct (Nat.eq_dec j k) as [->|Hjk].
          -- rewrite (W2 i (i + k * n1)); [apply G_at; exact Hi|apply in_seq; unfold n1 in *; lia|cbn; auto].
          -- rewrite N2. 2:{ intros a Ha [E|[E|[]]]; apply in_seq in Ha; symmetry in E; apply P in E; unfold n1 in *; lia. }
             rewrite <- (G_at i j Hi). destruct (Nat.le_ge_cases i j) as [H|H].
             ++ apply (W1 i); [apply in_seq; unfold n1 in *; lia|]. unfold w1. apply in_flat_map. exists j. split; [apply in_seq; unfold n1 in *; lia|].
                destruct (i =? j); cbn; auto.
             ++ apply (W1 j); [apply in_seq; unfold n1 in *; lia|]. unfold w1. apply in_flat_map. exists i. split; [apply in_seq; unfold n1 in *; lia|].
                destruct (Nat.eqb_spec j i) as [->|]; cbn; auto.
  Qed.
  Lemma combine_loop C : k <= length C -> exists x,
    foldM (seq 0 k) (fun x i => do c <- at_ C i; do p <- at_ ps i; axpy nv c (fst p) x) (repeat 0%Qc nv) = Ok x /\ length x = nv /\
    forall m, m < nv -> nth m x 0%Qc = combination (fun i => nth i C 0%Qc) (map fst ps) m.
  Proof.
    intros HC.
    assert (I : forall j, j <= k -> exists x, foldM (seq 0 j) (fun x i => do c <- at_ C i; do p <- at_ ps i; axpy nv c (fst p) x) (repeat 0%Qc nv) = Ok x /\ length x = nv /\
       forall m, m < nv -> nth m x 0%Qc = Sigma j (fun i => nth i C 0 * nth m (nth i (map fst ps) []) 0)%Qc).
    { induction j as [|j IH]; intros Hj.
      - exists (repeat 0%Qc nv). cbn. split; [reflexivity|]. split; [apply repeat_length|]. intros. apply nth_repeat.
      - destruct IH as [x [E [Lx Hx]]]; [lia|]. rewrite seq_S, foldM_app, E. cbn [bind foldM Nat.add].
        rewrite (at_ok C j 0%Qc) by lia. cbn [bind]. rewrite (at_ok ps j ([], [])) by (fold k; lia). cbn [bind].
        destruct (Hps _ (nth_in j ltac:(lia))) as [Hv _].
        destruct (axpy_ok nv (nth j C 0%Qc) (fst (nth j ps ([], []))) x) as [z [Ez [Lz Hz]]]; [lia|exact Lx|].
        rewrite Ez. cbn [bind]. exists z. split; [reflexivity|]. split; [exact Lz|]. intros m Hm. rewrite Hz, Hx by exact Hm.
        replace (S j) with (j + 1) by lia. rewrite Sigma_split. f_equal. unfold Sigma. cbn [seq sum Nat.add].
        rewrite (nth_indep (map fst ps) [] (fst (@nil Qc, @nil Qc))) by (rewrite map_length; fold k; lia). rewrite map_nth. ring. }
    destruct (I k (le_n _)) as [x [E [Lx Hx]]]. exists x. split; [exact E|]. split; [exact Lx|]. intros m Hm. rewrite Hx by exact Hm.
    unfold combination. rewrite map_length. reflexivity.
  Qed.
End SYSTEM.
