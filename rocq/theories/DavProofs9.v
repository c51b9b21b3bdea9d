From Coq Require Import QArith Qcanon.
From Verif Require Import Base SD Spec FockSpec Nondet SlaterCondon Ham HamProofs Asci AsciSort Mem MemProofs Sums SparseSpec CsrView Sparse SparseProofs3 Spmv SpmvSpec Dist DistProofs
  Collective CollectiveProofs SpmvGlue PropsHamGlue Diis
  DenseSpec DenseProofs DiisSpec DiisProofs DiisProofs2 RotProofs LinRespProofs ExpandProofs FockMatProofs PSpmvProofs2 Davidson DavSpec DavProofs DavProofs2 DavProofs3 DavProofs4 DavProofs5 DavProofs6 DavProofs7 DavProofs8.
Local Open Scope nat_scope.
Local Opaque allreduce_one allreduce INT_MAX.

Lemma extents_nth a b tiles : tiling a b tiles -> forall r lo hi, nth_error tiles r = Some (lo, hi) ->
  lo = a + start (extents tiles) r /\ nth r (extents tiles) 0 = hi - lo.
Proof.
  induction 1 as [|a m b l L H IH]; intros r lo hi E; [destruct r; discriminate|]. destruct r as [|r]; cbn in *.
  - injection E as <- <-. lia.
  - destruct (IH _ _ _ E) as [H1 H2]. split; [|exact H2]. unfold extents in H1. lia.
Qed.
Lemma extents_total M tiles : tiling 0 M tiles -> total (extents tiles) = M.
Proof. intros T. unfold total, extents. rewrite (tiles_total _ _ _ T). lia. Qed.
Lemma nth_error_ex {A} (l : list A) r : r < length l -> exists x, nth_error l r = Some x.
Proof. intros H. destruct (nth_error l r) eqn:E; [eauto|]. apply nth_error_None in E. lia. Qed.
Lemma extents_length tiles : length (extents tiles) = length tiles.
Proof. apply map_length. Qed.

Lemma parts_multiply dbg M tiles As A infos : parts_of M tiles As A -> int_sizes tiles As -> generate_spmv_comm_info dbg As = Ok infos ->
  p_multiplies (extents tiles) A (fun V AV => pgespmv 1%Qc 0%Qc (combine (combine (combine As V) AV) infos)).
Proof.
  intros (T & LA & HA) [HR HS] EI v av Sv Sav w Hw.
  pose proof Sv as [Lv Fv]. pose proof Sav as [Lav Fav]. rewrite extents_length in Lv, Fv, Lav, Fav.
  destruct (c42 dbg M tiles As v av (fun j => nth j (concat v) 0%Qc) 1%Qc 0%Qc T LA Lv Lav) as (infos' & EI' & _ & AL).
  - intros r B E. apply (HA r B E).
  - exact HR.
  - exact HS.
  - intros r lo hi E. assert (Hr : r < length tiles) by (apply nth_error_Some; congruence).
    destruct (extents_nth _ _ _ T _ _ _ E) as [E1 E2]. rewrite Fv, Fav by exact Hr. rewrite E2. split; [apply le_n|]. split; [apply le_n|].
    intros p Hp. cbn in E1. rewrite E1. symmetry. apply glue_nth; [exact Sv|rewrite extents_length; exact Hr|rewrite E2; exact Hp].
  - assert (infos' = infos) by congruence. subst infos'. destruct (proj2 AL _ Hw) as (w' & Ew & Lw & Fw). injection Ew as <-.
    assert (Sw : shaped (extents tiles) w).
    { split; [rewrite extents_length; exact Lw|]. intros r Hr. rewrite extents_length in Hr. destruct (nth_error_ex As r ltac:(lia)) as [B EB].
      destruct (nth_error_ex tiles r Hr) as [[lo hi] Et]. destruct (Fw r B lo hi EB Et) as [L _]. rewrite L. apply Fav. exact Hr. }
    split; [exact Sw|]. symmetry. apply (glue_ext (extents tiles)); [exact Sw|unfold mv; rewrite map_length, seq_length; reflexivity|].
    intros r j Hr Hj. rewrite nth_mv by (apply start_lt; assumption). rewrite extents_length in Hr.
    destruct (nth_error_ex As r ltac:(lia)) as [B EB]. destruct (nth_error_ex tiles r Hr) as [[lo hi] Et].
    destruct (extents_nth _ _ _ T _ _ _ Et) as [E1 E2]. cbn in E1. rewrite E2 in Hj.
    destruct (Fw r B lo hi EB Et) as (_ & F & _). rewrite F by exact Hj. rewrite (extents_total _ _ T). unfold matvec, Sigma.
    rewrite (sum_ext (seq 0 M) (fun j0 => dist_entry B lo hi j j0 * nth j0 (concat v) 0)%Qc (fun j0 => A (lo + j)%nat j0 * nth j0 (concat v) 0)%Qc).
    + rewrite E1. ring.
    + intros j0 Hj0. apply in_seq in Hj0. destruct (HA r B EB) as [_ G]. rewrite (G lo hi j j0 Et Hj) by lia. reflexivity.
Qed.

Lemma extents_mapM M tiles As Ns : (forall r B, nth_error As r = Some B -> dist_part M tiles r B) -> length As = length tiles ->
  mapM (fun rA => row_extent (snd rA) (fst rA)) (combine (seq 0 (length As)) As) = Ok Ns -> Ns = extents tiles.
Proof.
  intros HA LA H. apply mapM_inv in H. rewrite combine_length, seq_length, Nat.min_id in H. destruct H as [L F].
  apply (nth_ext' _ _ 0); [rewrite extents_length; lia|]. intros r Hr. rewrite L in Hr.
  specialize (F r (0, mk_dist 0 [] (mk_csr 0 0 0 [] [] []) None) 0 Hr). rewrite combine_nth in F by apply seq_length. cbn [fst snd] in F.
  rewrite seq_nth in F by exact Hr. cbn [plus] in F. unfold row_extent in F. apply bind_inv in F. destruct F as ((lo & hi) & Ht & F). injection F as F.
  destruct (nth_error_ex As r Hr) as [B EB]. rewrite (nth_error_nth As r _ EB) in Ht. destruct (HA r B EB) as (_ & Et & _). rewrite Et in Ht.
  apply (at_inv _ _ _ (0, 0)) in Ht. destruct Ht as [_ Ht]. rewrite <- F. rewrite (map_nth (fun t : nat * nat => snd t - fst t) tiles (0, 0) r : nth r (extents tiles) 0 = _), Ht. reflexivity.
Qed.
Lemma diagonals_shaped M tiles As D : tiling 0 M tiles -> (forall r B, nth_error As r = Some B -> dist_part M tiles r B) -> length As = length tiles ->
  mapM (fun A => extract_diagonal_elements (d_diag A)) As = Ok D -> shaped (extents tiles) D.
Proof.
  intros T HA LA H. apply mapM_inv in H. destruct H as [L F]. split; [rewrite extents_length; lia|]. intros r Hr. rewrite extents_length in Hr.
  destruct (nth_error_ex As r ltac:(lia)) as [B EB]. destruct (HA r B EB) as (_ & _ & lo & hi & Et & WF & EM & _).
  destruct (extents_nth _ _ _ T _ _ _ Et) as [_ E2]. specialize (F r B [] ltac:(lia)). rewrite (nth_error_nth As r B EB) in F.
  rewrite extract_diagonal_ok in F by exact WF. injection F as F. rewrite <- F, map_length, seq_length. lia.
Qed.
Lemma resize_shaped Ns C : length C = length Ns -> shaped Ns (map (fun NC => resize (fst NC) (snd NC)) (combine Ns C)).
Proof.
  intros L. split; [rewrite map_length, combine_length; lia|]. intros r Hr.
  rewrite (nth_indep _ _ (resize (fst (0, @nil Qc)) (snd (0, @nil Qc)))) by (rewrite map_length, combine_length; lia).
  rewrite (map_nth (fun NC => resize (fst NC) (snd NC))), combine_nth by lia. cbn [fst snd]. apply resize_length.
Qed.
Lemma foldM_put_length (l : list nat) : forall (X X' : list Qc), foldM l (fun X i => put X i 0%Qc) X = Ok X' -> length X' = length X.
Proof.
  induction l as [|i l IH]; intros X X' H; cbn in H; [injection H as ->; reflexivity|]. apply bind_inv in H. destruct H as (X1 & H1 & H).
  apply (put_nth 0%Qc) in H1. destruct H1 as (_ & L & _). rewrite (IH _ _ H). exact L.
Qed.
Lemma guess_lengths ins X' : p_diagonal_guess ins = Ok X' -> length X' = length ins /\ forall r, r < length ins -> length (nth r X' []) = length (snd (nth r ins (mk_dist 0 [] (mk_csr 0 0 0 [] [] []) None, []))).
Proof.
  unfold p_diagonal_guess. intros H. apply bind_inv in H. destruct H as (Dl & _ & H). apply mapM_inv in H. rewrite combine_length, seq_length, Nat.min_id in H.
  destruct H as [L F]. split; [exact L|]. intros r Hr. specialize (F r (0, (mk_dist 0 [] (mk_csr 0 0 0 [] [] []) None, [])) [] Hr).
  rewrite combine_nth in F by apply seq_length. destruct (nth r ins _) as [B X]. cbn beta iota in F.
  apply bind_inv in F. destruct F as (rc & _ & F). apply bind_inv in F. destruct F as (D & _ & F). apply bind_inv in F. destruct F as (n & _ & F).
  apply bind_inv in F. destruct F as (X1 & H1 & F). apply foldM_put_length in H1. apply bind_inv in F. destruct F as (c0 & _ & F). cbn [snd].
  destruct (c0 =? 0); [discriminate|]. destruct (_ =? _).
  - apply bind_inv in F. destruct F as (t & _ & F). apply bind_inv in F. destruct F as (off & _ & F). apply (put_nth 0%Qc) in F. destruct F as (_ & LF & _). lia.
  - injection F as <-. exact H1.
Qed.

(** what a returned run went through *)
Lemma parallel_inv root syev dbg M tiles As A max_m tol C Es Ys : parts_of M tiles As A -> int_sizes tiles As -> 0 < length tiles -> length C = length tiles ->
  parallel_selected_ci_diag root syev dbg As max_m tol C (Ok (Es, Ys)) ->
  let C1 := map (fun NC => resize (fst NC) (snd NC)) (combine (extents tiles) C) in
  exists it E D C', Es = repeat E (length tiles) /\ shaped (extents tiles) Ys /\ shaped (extents tiles) C' /\ shaped (extents tiles) D /\ mapM (fun A => extract_diagonal_elements (d_diag A)) As = Ok D /\
    (forall r, r < length tiles -> 0 < nth r (extents tiles) 0) /\
    (exists keep, mapM keep_guess C1 = Ok keep /\
      ((forallb (fun b => b) keep = true /\ C' = C1) \/ (existsb (fun b => b) keep = false /\ p_diagonal_guess (combine As C1) = Ok C'))) /\
    davidson_run root syev M max_m (fun v _ => ret (mv M A v)) (concat D) tol (concat C') (Ok (it, E, concat Ys)).
Proof.
  intros PA IS HP LC H. pose proof PA as (T & LA & HA). unfold parallel_selected_ci_diag in H.
  apply det_inv in H. destruct H as (Ns & HNs & H). apply (extents_mapM M tiles) in HNs; [|intros r B E; apply (HA r B E)|exact LA]. subst Ns.
  set (C1 := map (fun NC => resize (fst NC) (snd NC)) (combine (extents tiles) C)) in *.
  apply det_inv in H. destruct H as (D & HD & H). apply det_inv in H. destruct H as (keep & HK & H). apply det_inv in H. destruct H as (C' & HC & H).
  apply det_inv in H. destruct H as (infos & HI & H). apply nd_inv in H. destruct H as (((it & E) & Y) & HDav & H). injection H as -> ->.
  assert (SC1 : shaped (extents tiles) C1) by (apply resize_shaped; rewrite extents_length; exact LC).
  assert (SD : shaped (extents tiles) D) by (eapply diagonals_shaped; [exact T|intros r B EB; apply (HA r B EB)|exact LA|exact HD]).
  assert (GC : shaped (extents tiles) C' /\ ((forallb (fun b => b) keep = true /\ C' = C1) \/ (existsb (fun b => b) keep = false /\ p_diagonal_guess (combine As C1) = Ok C'))).
  { destruct (forallb (fun b => b) keep).
    - injection HC as <-. auto.
    - destruct (existsb (fun b => b) keep); [discriminate|]. split; [|auto]. destruct SC1 as [L1 F1]. rewrite extents_length in *.
      assert (LCC : length (combine As C1) = length tiles) by (rewrite combine_length; lia).
      destruct (guess_lengths _ _ HC) as [LG FG]. rewrite LCC in *. split; [rewrite extents_length; exact LG|]. rewrite extents_length.
      intros r Hr. rewrite FG by exact Hr. rewrite combine_nth by lia. cbn [snd]. apply F1. exact Hr. }
  destruct GC as [SC GC].
  assert (Pos : forall r, r < length tiles -> 0 < nth r (extents tiles) 0).
  { intros r Hr. destruct (Nat.eq_dec (nth r (extents tiles) 0) 0) as [Z|]; [|lia]. exfalso. destruct SC1 as [L1 F1]. rewrite extents_length in *.
    apply mapM_inv in HK. destruct HK as [_ FK]. specialize (FK r [] false ltac:(lia)). specialize (F1 r Hr). rewrite Z in F1.
    destruct (nth r C1 []); [|discriminate F1]. discriminate FK. }
  destruct (p_davidson_sim root syev (extents tiles) max_m A (fun V AV => pgespmv 1%Qc 0%Qc (combine (combine (combine As V) AV) infos)) D tol C' it E Y) as (lam & E1 & SY & HS).
  - rewrite extents_length. exact HP.
  - eapply parts_multiply; [exact PA|exact IS|exact HI].
  - exact SD.
  - exact SC.
  - exact HDav.
  - rewrite (extents_total _ _ T), extents_length in *. exists it, lam, D, C'.
    split; [exact E1|]. split; [exact SY|]. split; [exact SC|]. split; [exact SD|]. split; [exact HD|]. split; [exact Pos|]. split; [eauto|exact HS].
Qed.
Lemma mv_multiplies M A : multiplies M A (fun v _ => ret (mv M A v)).
Proof. intros v av _ _ w H. injection H as ->. split; [unfold mv; rewrite map_length, seq_length; reflexivity|]. intros i Hi. apply nth_mv. exact Hi. Qed.
Lemma parallel_residual root syev dbg M tiles As A max_m tol C Es Ys : parts_of M tiles As A -> int_sizes tiles As -> 0 < length tiles -> length C = length tiles ->
  parallel_selected_ci_diag root syev dbg As max_m tol C (Ok (Es, Ys)) ->
  exists E, Es = repeat E (length tiles) /\ length Ys = length tiles /\ (forall r lo hi, nth_error tiles r = Some (lo, hi) -> length (nth r Ys []) = hi - lo) /\
    (root (residual2 M A E (concat Ys)) < tol)%Qc.
Proof.
  intros PA IS HP LC H. destruct (parallel_inv _ _ _ _ _ _ _ _ _ _ _ _ PA IS HP LC H) as (it & E & D & C' & E1 & [LY FY] & _ & _ & _ & _ & _ & HS).
  exists E. split; [exact E1|]. rewrite extents_length in *. split; [exact LY|]. split.
  - intros r lo hi Et. assert (Hr : r < length tiles) by (apply nth_error_Some; congruence). rewrite FY by exact Hr. apply (extents_nth _ _ _ (proj1 PA) _ _ _ Et).
  - destruct (run_converged _ _ _ _ _ _ _ _ _ _ _ _ (mv_multiplies M A) HS) as (_ & _ & R). exact R.
Qed.
