(** The coordinate-format product. *)
From Coq Require Import QArith Qcanon Sorting.Permutation Sorting.Sorted.
From Verif Require Import Base Sums Nondet Ham SparseSpec CsrView CsrProofs Dist Asci Constraint Mem MemProofs Spmv SpmvSpec SpmvProofs PSpmvProofs2 PSpmvProofs3.
Local Open Scope nat_scope.

Lemma coo_triples_seq A : coo_wf A -> coo_triples A =
  map (fun q => (nth q (coo_row A) 0 - coo_ind A, nth q (coo_col A) 0 - coo_ind A, nth q (coo_val A) 0%Qc)) (seq 0 (length (coo_val A))).
Proof.
  intros (L1 & L2 & _). unfold coo_triples.
  rewrite (list_as_map (coo_row A) 0) at 1. rewrite (list_as_map (coo_col A) 0) at 1. rewrite (list_as_map (coo_val A) 0%Qc) at 1.
  rewrite L1, L2, !map_map, !combine_map2. reflexivity.
Qed.

Lemma gespmbv_coo_ok K alpha A V LDV beta AV LDAV (v : nat -> nat -> Qc) : coo_wf A -> coo_ind A = 0 ->
  (forall k j, k < K -> j < coo_n A -> load V (j + k * LDV) = Ok (v k j)) ->
  (coo_m A <= LDAV \/ K <= 1) -> (forall k, k < K -> k * LDAV + coo_m A <= length AV) ->
  always (gespmbv_coo K alpha A V LDV beta AV LDAV) (fun AV' => length AV' = length AV /\
    (forall k i, k < K -> i < coo_m A -> nth (i + k * LDAV) AV' 0%Qc =
       (alpha * sum (seq 0 (coo_n A)) (fun j => coo_entry A i j * v k j) + beta * nth (i + k * LDAV) AV 0)%Qc) /\
    (forall p, (forall k i, k < K -> i < coo_m A -> p <> i + k * LDAV) -> nth p AV' 0%Qc = nth p AV 0%Qc)).
Proof.
  intros W I0 HV HD HB. unfold gespmbv_coo.
  eapply always_bind; [apply (parallel_cells 0%Qc _ (fun ki => snd ki + fst ki * LDAV)
    (fun ki y => (y * beta)%Qc) _ _ (length AV)); auto|].
  - apply NoDup_map_on; [|apply NoDup_prod; apply seq_NoDup].
    intros [k i] [k' i'] Hx Hy E. apply in_prod_iff in Hx, Hy. rewrite !in_seq in Hx, Hy. cbn [fst snd] in E.
    destruct (loc_inj LDAV (coo_m A) k i k' i') as [-> ->]; auto; try lia.
  - intros [k i] Hx. apply in_prod_iff in Hx. rewrite !in_seq in Hx. cbn [fst snd]. specialize (HB k ltac:(lia)). lia.
  - intros s [k i] Hx L. apply in_prod_iff in Hx. rewrite !in_seq in Hx. cbn [fst snd]. specialize (HB k ltac:(lia)).
    rewrite (at_ok _ _ 0%Qc) by lia. cbn [bind]. rewrite put_ok by lia. reflexivity.
  - cbn beta. intros AV1 (L1 & R1 & U1).
    pose proof W as (LR & LC & WR & WC). rewrite I0 in WR, WC.
    set (term := fun kq : nat * nat => Qcmult (Qcmult alpha (nth (snd kq) (coo_val A) 0%Qc)) (v (fst kq) (nth (snd kq) (coo_col A) 0))).
    set (F := fun (AV : list Qc) (ki : nat * nat) => _).
    destruct (foldM_inv F (fun done s => length s = length AV /\ forall p, nth p s 0%Qc =
        Qcplus (nth p AV1 0%Qc) (sum done (fun kq => if nth (snd kq) (coo_row A) 0 + fst kq * LDAV =? p then term kq else 0%Qc)))
        (list_prod (seq 0 K) (seq 0 (length (coo_val A)))) [] AV1) as (s & E & Ls & Rs).
    + split; auto. intros p. cbn [sum]. ring.
    + intros done [k q] s (Ls & Rs) Hx. apply in_prod_iff in Hx. rewrite !in_seq in Hx. unfold F.
      pose proof (WR (nth q (coo_row A) 0) ltac:(apply nth_In; lia)).
      pose proof (WC (nth q (coo_col A) 0) ltac:(apply nth_In; lia)). specialize (HB k ltac:(lia)).
      rewrite (at_ok (coo_row A) q 0) by lia. cbn [bind]. rewrite (at_ok (coo_col A) q 0) by lia. cbn [bind].
      rewrite (at_ok (coo_val A) q 0%Qc) by lia. cbn [bind]. rewrite HV by lia. cbn [bind].
      rewrite (at_ok s _ 0%Qc) by lia. cbn [bind]. rewrite put_ok by lia. eexists. split; [reflexivity|].
      split; [rewrite upd_length; auto|]. intros p. rewrite upd_nth by lia. rewrite sum_app. cbn [sum fst snd].
      rewrite (Nat.eqb_sym p). destruct (Nat.eqb_spec (nth q (coo_row A) 0 + k * LDAV) p) as [<-|N].
      * rewrite Rs. unfold term. cbn [fst snd]. ring.
      * rewrite Rs. ring.
    + rewrite E. apply always_det with (a := s); auto. split; auto. cbn [app] in Rs. split.
      * intros k i Hk Hi. rewrite Rs. specialize (R1 (k, i)). cbn [fst snd] in R1. rewrite R1 by (apply in_prod; apply in_seq; lia).
        rewrite sum_prod. rewrite (sum_single (seq 0 K) k).
        -- cbn [fst snd].
           assert (X : sum (seq 0 (length (coo_val A))) (fun b => if (nth b (coo_row A) 0 + k * LDAV =? i + k * LDAV)%nat then term (k, b) else 0%Qc) =
              (alpha * sum (seq 0 (coo_n A)) (fun j => coo_entry A i j * v k j))%Qc).
           { unfold coo_entry. rewrite coo_triples_seq by auto. rewrite I0.
             rewrite <- sum_scale.
             rewrite (sum_ext (seq 0 (coo_n A)) _ (fun j => sum (seq 0 (length (coo_val A))) (fun q =>
                if (nth q (coo_row A) 0 =? i) && (nth q (coo_col A) 0 =? j) then term (k, q) else 0%Qc))).
             2:{ intros j _. rewrite sum_map. cbn [fst snd]. rewrite <- sum_scale_r, <- sum_scale. apply sum_ext. intros q _.
                 rewrite !Nat.sub_0_r. destruct (Nat.eqb_spec (nth q (coo_row A) 0) i); cbn [andb]; [|ring].
                 destruct (Nat.eqb_spec (nth q (coo_col A) 0) j) as [<-|]; [|ring]. unfold term. cbn [fst snd]. ring. }
             rewrite sum_swap. apply sum_ext. intros q Hq. apply in_seq in Hq.
             destruct (Nat.eqb_spec (nth q (coo_row A) 0 + k * LDAV) (i + k * LDAV)) as [e|e].
             - assert (nth q (coo_row A) 0 = i) as -> by lia. rewrite Nat.eqb_refl. cbn [andb].
               rewrite (sum_single (seq 0 (coo_n A)) (nth q (coo_col A) 0)).
               + rewrite Nat.eqb_refl. reflexivity.
               + apply seq_NoDup.
               + apply in_seq. pose proof (WC (nth q (coo_col A) 0) ltac:(apply nth_In; lia)). lia.
               + intros j _ Hj. destruct (Nat.eqb_spec (nth q (coo_col A) 0) j); congruence.
             - rewrite sum_zero; auto. intros j _. destruct (Nat.eqb_spec (nth q (coo_row A) 0) i); [lia|]. reflexivity. }
           rewrite X. ring.
        -- apply seq_NoDup.
        -- apply in_seq. lia.
        -- intros k' Hk' N. apply in_seq in Hk'. apply sum_zero. intros q Hq. apply in_seq in Hq. cbn [fst snd].
           destruct (Nat.eqb_spec (nth q (coo_row A) 0 + k' * LDAV) (i + k * LDAV)) as [e|e]; auto.
           pose proof (WR (nth q (coo_row A) 0) ltac:(apply nth_In; lia)).
           destruct (loc_inj LDAV (coo_m A) k' (nth q (coo_row A) 0) k i); auto; try lia.
      * intros p Hp. rewrite Rs, sum_zero.
        -- rewrite U1; [ring|]. intros X. apply in_map_iff in X. destruct X as ([k i] & <- & X).
           apply in_prod_iff in X. rewrite !in_seq in X. apply (Hp k i); cbn; lia.
        -- intros [k q] Hkq. apply in_prod_iff in Hkq. rewrite !in_seq in Hkq. cbn [fst snd].
           destruct (Nat.eqb_spec (nth q (coo_row A) 0 + k * LDAV) p) as [e|e]; auto. exfalso.
           apply (Hp k (nth q (coo_row A) 0)); try lia.
           pose proof (WR (nth q (coo_row A) 0) ltac:(apply nth_In; lia)). lia.
Qed.
