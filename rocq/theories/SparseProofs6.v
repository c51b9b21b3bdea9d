(** Sorting of coordinate matrices, expansion of triangles, dense conversion. *)
From Coq Require Import QArith Qcanon Sorting.Permutation Sorting.Sorted.
From Verif Require Import Base SDProofs SDProofs4 Sums Nondet Ham Asci Mem MemProofs Spmv SparseSpec CsrView SpmvSpec CsrProofs SpmvProofs PSpmvProofs2 PSpmvProofs3 CooProofs Sparse ConvSpec SparseProofs1 SparseProofs2 SparseProofs3 SparseProofs4.
Local Open Scope nat_scope.

Lemma coo_entry_tsum A i j : coo_entry A i j = tsum (coo_triples A) i j. Proof. reflexivity. Qed.
Lemma coo_entry_perm A B i j : Permutation (coo_triples A) (coo_triples B) -> coo_entry A i j = coo_entry B i j.
Proof. intros P. unfold coo_entry. apply sum_perm, P. Qed.

(** ** sorting *)
Definition pick (A : coo) (l : list nat) : coo :=
  mk_coo (coo_m A) (coo_n A) (coo_ind A) (map (fun q => nth q (coo_row A) 0) l) (map (fun q => nth q (coo_col A) 0) l) (map (fun q => nth q (coo_val A) 0%Qc) l).
Lemma pick_triples A l : coo_triples (pick A l) = map (fun q => (nth q (coo_row A) 0 - coo_ind A, nth q (coo_col A) 0 - coo_ind A, nth q (coo_val A) 0%Qc)) l.
Proof. unfold coo_triples, pick. cbn. rewrite !map_map, combine_map2, combine_map2. reflexivity. Qed.
Lemma pick_wf A l : coo_wf A -> Permutation (seq 0 (length (coo_val A))) l -> coo_wf (pick A l).
Proof.
  intros (L1 & L2 & B1 & B2) P. unfold coo_wf, pick. cbn. rewrite !map_length. split; auto. split; auto.
  assert (I : forall q, In q l -> q < length (coo_val A)) by (intros q Hq; apply (Permutation_in _ (Permutation_sym P)) in Hq; apply in_seq in Hq; lia).
  split; intros x Hx; apply in_map_iff in Hx; destruct Hx as (q & <- & Hq); specialize (I q Hq); [apply B1|apply B2]; apply nth_In; lia.
Qed.
Lemma sort_coo_ok A lt : coo_wf A ->
  (forall x y, lt x y = true -> lt y x = false) -> (forall x y z, lt y x = false -> lt z y = false -> lt z x = false) ->
  always (sort_coo A lt) (fun B => exists l, B = pick A l /\ Permutation (seq 0 (length (coo_val A))) l /\
    StronglySorted (fun x y => lt y x = false) l).
Proof.
  intros H AS NT. unfold sort_coo. apply always_bind with (P := fun l => Permutation (seq 0 (length (coo_val A))) l /\
    StronglySorted (fun x y => lt y x = false) l); [apply std_sort_always; auto|].
  intros l [P ST].
  assert (I : forall q, In q l -> q < length (coo_val A)) by (intros q Hq; apply (Permutation_in _ (Permutation_sym P)) in Hq; apply in_seq in Hq; lia).
  destruct H as (L1 & L2 & _ & _).
  apply always_det with (a := pick A l); [|eauto].
  rewrite (mapM_ok _ (fun q => nth q (coo_row A) 0)) by (intros q Hq; apply at_ok; specialize (I q Hq); lia). cbn [bind].
  rewrite (mapM_ok _ (fun q => nth q (coo_col A) 0)) by (intros q Hq; apply at_ok; specialize (I q Hq); lia). cbn [bind].
  rewrite (mapM_ok _ (fun q => nth q (coo_val A) 0%Qc)) by (intros q Hq; apply at_ok; specialize (I q Hq); lia). reflexivity.
Qed.

Definition lex (a b : list nat) (i j : nat) : bool :=
  let ri := nth i a 0 in let rj := nth j a 0 in
  if ri <? rj then true else if rj <? ri then false else nth i b 0 <? nth j b 0.
Lemma lex_false a b i j : lex a b j i = false <-> nth i a 0 < nth j a 0 \/ (nth i a 0 = nth j a 0 /\ nth i b 0 <= nth j b 0).
Proof.
  unfold lex. destruct (Nat.ltb_spec (nth j a 0) (nth i a 0)), (Nat.ltb_spec (nth i a 0) (nth j a 0)), (Nat.ltb_spec (nth j b 0) (nth i b 0));
    (split; [intros; try discriminate; try lia|intros; try reflexivity; try lia]).
Qed.
Lemma lex_true a b i j : lex a b i j = true -> nth i a 0 < nth j a 0 \/ (nth i a 0 = nth j a 0 /\ nth i b 0 < nth j b 0).
Proof.
  unfold lex. destruct (Nat.ltb_spec (nth i a 0) (nth j a 0)), (Nat.ltb_spec (nth j a 0) (nth i a 0)), (Nat.ltb_spec (nth i b 0) (nth j b 0)); intros; try discriminate; lia.
Qed.
Lemma sorted_map {X Y} (R : X -> X -> Prop) (S : Y -> Y -> Prop) (f : X -> Y) l : (forall x y, R x y -> S (f x) (f y)) ->
  StronglySorted R l -> StronglySorted S (map f l).
Proof.
  intros H. induction 1 as [|x l H1 IH F]; cbn; constructor; auto. rewrite Forall_forall in *. intros y Hy. apply in_map_iff in Hy.
  destruct Hy as (z & <- & Hz). apply H, F, Hz.
Qed.
(** the sorted matrix has the same stored elements, in lexicographic order *)
Lemma sort_rows_ok A : coo_wf A ->
  always (sort_by_row_index A) (fun B => coo_wf B /\ coo_m B = coo_m A /\ coo_n B = coo_n A /\ coo_ind B = coo_ind A /\
    Permutation (coo_triples A) (coo_triples B) /\ StronglySorted lex_le (combine (coo_row B) (coo_col B))).
Proof.
  intros H. unfold sort_by_row_index. eapply always_weaken; [|apply (sort_coo_ok A (lex (coo_row A) (coo_col A))); auto].
  - cbv beta. intros B (l & -> & P & ST). split; [apply pick_wf; auto|]. split; [auto|]. split; [auto|]. split; [auto|]. split.
    + rewrite pick_triples, (coo_triples_seq A H). apply Permutation_map, P.
    + unfold pick. cbn. rewrite combine_map2. revert ST. apply sorted_map. intros x y E. apply lex_false in E. unfold lex_le. cbn. lia.
  - intros x y E. apply lex_true in E. apply lex_false. lia.
  - intros x y z E1 E2. apply lex_false in E1, E2. apply lex_false. lia.
Qed.
Lemma sort_cols_ok A : coo_wf A ->
  always (sort_by_col_index A) (fun B => coo_wf B /\ coo_m B = coo_m A /\ coo_n B = coo_n A /\ coo_ind B = coo_ind A /\
    Permutation (coo_triples A) (coo_triples B) /\ StronglySorted lex_le (combine (coo_col B) (coo_row B))).
Proof.
  intros H. unfold sort_by_col_index. eapply always_weaken; [|apply (sort_coo_ok A (lex (coo_col A) (coo_row A))); auto].
  - cbv beta. intros B (l & -> & P & ST). split; [apply pick_wf; auto|]. split; [auto|]. split; [auto|]. split; [auto|]. split.
    + rewrite pick_triples, (coo_triples_seq A H). apply Permutation_map, P.
    + unfold pick. cbn. rewrite combine_map2. revert ST. apply sorted_map. intros x y E. apply lex_false in E. unfold lex_le. cbn. lia.
  - intros x y E. apply lex_true in E. apply lex_false. lia.
  - intros x y z E1 E2. apply lex_false in E1, E2. apply lex_false. lia.
Qed.
Lemma lex_le_fst a b : length b = length a -> StronglySorted lex_le (combine a b) -> StronglySorted le a.
Proof.
  intros L ST. assert (E : a = map fst (combine a b)).
  { clear ST. revert b L. induction a as [|x a IH]; intros [|y b] L; cbn in *; try lia; auto. f_equal. apply IH. lia. }
  rewrite E. revert ST. apply sorted_map. unfold lex_le. intros; lia.
Qed.

(** ** expansion *)
Definition off_diag (t : nat * nat * Qc) : bool := negb (fst (fst t) =? snd (fst t)).
Definition swap_t (t : nat * nat * Qc) : nat * nat * Qc := (snd (fst t), fst (fst t), snd t).
Definition is_lower (A : coo) : bool := forallb (fun t => fst (fst t) <=? snd (fst t)) (coo_triples A).
Definition is_upper (A : coo) : bool := forallb (fun t => snd (fst t) <=? fst (fst t)) (coo_triples A).

Lemma tri_check (p : nat * nat -> bool) (q : nat * nat * Qc -> bool) A : coo_wf A ->
  (forall t, In t (coo_triples A) -> p (coo_ind A + fst (fst t), coo_ind A + snd (fst t)) = q t) ->
  forallb p (combine (coo_row A) (coo_col A)) = forallb q (coo_triples A).
Proof.
  intros H Hp. destruct (triples_proj A H) as (P1 & P2 & _).
  assert (E : combine (coo_row A) (coo_col A) = map (fun t => (coo_ind A + fst (fst t), coo_ind A + snd (fst t))) (coo_triples A)).
  { rewrite <- P1, <- P2 at 1. apply combine_map2. }
  rewrite E. revert Hp. clear. induction (coo_triples A) as [|t T IH]; intros Hp; cbn; auto. rewrite Hp by (left; auto). f_equal. apply IH. intros; apply Hp; right; auto.
Qed.

Lemma expand_loop A : coo_wf A ->
  foldM (seq 0 (length (coo_val A))) (fun s i =>
      let '(ri, ci, nz) := s in
      do r <- at_ ri i; do c <- at_ ci i; do v <- at_ nz i;
      if negb (r =? c) then Ok (ri ++ [c], ci ++ [r], nz ++ [v]) else Ok s)
      (coo_row A, coo_col A, coo_val A)
  = let U := map swap_t (filter off_diag (coo_triples A)) in
    Ok (coo_row A ++ map (fun t => coo_ind A + fst (fst t)) U, coo_col A ++ map (fun t => coo_ind A + snd (fst t)) U, coo_val A ++ map snd U).
Proof.
  intros H. cbv zeta. pose proof (coo_triples_seq A H) as TS. destruct (triples_proj A H) as (P1 & P2 & P3).
  assert (HH := H). destruct HH as (L1 & L2 & B1 & B2).
  assert (LT : length (coo_triples A) = length (coo_val A)) by (rewrite TS, map_length, seq_length; auto).
  match goal with |- foldM _ ?f _ = _ => destruct (foldM_seq f (fun k s =>
     let U := map swap_t (filter off_diag (firstn k (coo_triples A))) in
     s = (coo_row A ++ map (fun t => coo_ind A + fst (fst t)) U, coo_col A ++ map (fun t => coo_ind A + snd (fst t)) U, coo_val A ++ map snd U)) 0 (length (coo_val A)) (coo_row A, coo_col A, coo_val A)) as (s & E & R) end.
  - cbn. rewrite !app_nil_r. reflexivity.
  - intros k s Hk ->. cbv zeta.
    set (d := (0, 0, 0%Qc) : nat * nat * Qc).
    assert (FS : firstn (S k) (coo_triples A) = firstn k (coo_triples A) ++ [nth k (coo_triples A) d]).
    { assert (Hk' : k < length (coo_triples A)) by lia. clear -Hk'. revert k Hk'. induction (coo_triples A) as [|t T IH]; intros [|k] Hk; cbn in *; try lia; auto. f_equal. apply IH. lia. }
    set (t := nth k (coo_triples A) d) in *.
    assert (N1 : nth k (coo_row A) 0 = coo_ind A + fst (fst t)).
    { rewrite <- P1 at 1. rewrite (nth_indep _ 0 (coo_ind A + fst (fst d))) by (rewrite map_length; lia). rewrite (map_nth (fun t => coo_ind A + fst (fst t))). reflexivity. }
    assert (N2 : nth k (coo_col A) 0 = coo_ind A + snd (fst t)).
    { rewrite <- P2 at 1. rewrite (nth_indep _ 0 (coo_ind A + snd (fst d))) by (rewrite map_length; lia). rewrite (map_nth (fun t => coo_ind A + snd (fst t))). reflexivity. }
    assert (N3 : nth k (coo_val A) 0%Qc = snd t).
    { rewrite <- P3 at 1. change 0%Qc with (snd d). apply map_nth. }
    rewrite (at_ok _ _ 0) by (rewrite app_length; lia). cbn [bind]. rewrite (at_ok _ _ 0) by (rewrite app_length; lia). cbn [bind].
    rewrite (at_ok _ _ 0%Qc) by (rewrite app_length; lia). cbn [bind]. rewrite !app_nth1 by lia. rewrite N1, N2, N3.
    rewrite FS, filter_app, map_app. cbn [filter].
    destruct (Nat.eqb_spec (coo_ind A + fst (fst t)) (coo_ind A + snd (fst t))) as [e|e]; cbn [negb].
    + assert (OD : off_diag t = false) by (unfold off_diag; destruct (Nat.eqb_spec (fst (fst t)) (snd (fst t))); auto; lia).
      rewrite OD. cbn [map]. rewrite !app_nil_r. eexists. split; reflexivity.
    + assert (OD : off_diag t = true) by (unfold off_diag; destruct (Nat.eqb_spec (fst (fst t)) (snd (fst t))); auto; lia).
      rewrite OD. eexists. split; [reflexivity|]. rewrite !map_app, <- !app_assoc. cbn [map swap_t fst snd]. reflexivity.
  - rewrite E. cbn [plus] in R. rewrite R. rewrite <- LT, firstn_all. reflexivity.
Qed.

Definition expanded (A : coo) : coo :=
  let U := map swap_t (filter off_diag (coo_triples A)) in
  mk_coo (coo_m A) (coo_n A) (coo_ind A) (coo_row A ++ map (fun t => coo_ind A + fst (fst t)) U)
    (coo_col A ++ map (fun t => coo_ind A + snd (fst t)) U) (coo_val A ++ map snd U).
Lemma filter_count {X} (p : X -> bool) l : length (filter p l) + length (filter (fun x => negb (p x)) l) = length l.
Proof. induction l as [|x l IH]; cbn; auto. destruct (p x); cbn; lia. Qed.
Lemma expand_run A : coo_wf A ->
  let tri := negb (Bool.eqb (is_lower A) (is_upper A)) in
  let nd := length (filter (fun t => fst (fst t) =? snd (fst t)) (coo_triples A)) in
  expand_from_triangle A =
    if tri then (if 2 * length (coo_val A) <? coo_n A then Err Throw else if nd =? coo_n A then Ok (expanded A) else Err AssertFail) else Ok A.
Proof.
  intros H. cbv zeta. unfold expand_from_triangle.
  rewrite (tri_check (fun p => fst p <=? snd p) (fun t => fst (fst t) <=? snd (fst t)) A H).
  2:{ intros t _. cbn [fst snd]. destruct (Nat.leb_spec (fst (fst t)) (snd (fst t))), (Nat.leb_spec (coo_ind A + fst (fst t)) (coo_ind A + snd (fst t))); auto; lia. }
  rewrite (tri_check (fun p => snd p <=? fst p) (fun t => snd (fst t) <=? fst (fst t)) A H).
  2:{ intros t _. cbn [fst snd]. destruct (Nat.leb_spec (snd (fst t)) (fst (fst t))), (Nat.leb_spec (coo_ind A + snd (fst t)) (coo_ind A + fst (fst t))); auto; lia. }
  fold (is_lower A) (is_upper A).
  rewrite (expand_loop A H). cbv zeta. cbn [bind].
  assert (LN : length (filter (fun t => fst (fst t) =? snd (fst t)) (coo_triples A)) + length (filter off_diag (coo_triples A)) = length (coo_val A)).
  { unfold off_diag. rewrite filter_count. rewrite (coo_triples_seq A H), map_length, seq_length. reflexivity. }
  destruct H as (L1 & L2 & _ & _).
  destruct (Nat.ltb_spec (2 * length (coo_val A)) (coo_n A)) as [e|e]; cbn [bind].
  { destruct (is_lower A), (is_upper A); reflexivity. }
  rewrite !app_length, !map_length, L1, L2.
  set (nd := length (filter (fun t => fst (fst t) =? snd (fst t)) (coo_triples A))) in *.
  replace (length (coo_val A) + length (filter off_diag (coo_triples A)) =? 2 * length (coo_val A) - coo_n A) with (nd =? coo_n A).
  - destruct (is_lower A), (is_upper A), (nd =? coo_n A); reflexivity.
  - destruct (Nat.eqb_spec nd (coo_n A)), (Nat.eqb_spec (length (coo_val A) + length (filter off_diag (coo_triples A))) (2 * length (coo_val A) - coo_n A)); auto; lia.
Qed.
Lemma expanded_triples A : coo_wf A -> coo_triples (expanded A) = coo_triples A ++ map swap_t (filter off_diag (coo_triples A)).
Proof.
  intros H. destruct (triples_proj A H) as (P1 & P2 & P3). unfold coo_triples at 1, expanded. cbn [coo_ind coo_row coo_col coo_val].
  set (U := map swap_t (filter off_diag (coo_triples A))). rewrite <- P1, <- P2, <- P3 at 1. rewrite <- !map_app.
  generalize (coo_triples A ++ U). intros T. rewrite !map_map, !combine_map2. rewrite <- map_id. apply map_ext. intros [[a b] v]. cbn. f_equal. f_equal; lia.
Qed.
Lemma expanded_wf A : coo_wf A -> coo_m A = coo_n A -> coo_wf (expanded A).
Proof.
  intros H E. assert (HB := fun t Ht => triples_bound A t H Ht). destruct H as (L1 & L2 & B1 & B2).
  unfold coo_wf, expanded. cbn [coo_m coo_n coo_ind coo_row coo_col coo_val]. rewrite !app_length, !map_length, L1, L2.
  split; auto. split; auto.
  split; intros x Hx; apply in_app_or in Hx; destruct Hx as [Hx|Hx]; auto; apply in_map_iff in Hx; destruct Hx as (u & <- & Hu);
    apply in_map_iff in Hu; destruct Hu as (t & <- & Ht); apply filter_In in Ht; destruct Ht as [Ht _]; specialize (HB t Ht);
    unfold swap_t; cbn [fst snd]; lia.
Qed.
Lemma expanded_entry A i j : coo_wf A -> coo_entry (expanded A) i j = if i =? j then coo_entry A i j else (coo_entry A i j + coo_entry A j i)%Qc.
Proof.
  intros H. unfold coo_entry. rewrite (expanded_triples A H), sum_app, sum_map, sum_filter.
  destruct (Nat.eqb_spec i j) as [->|e].
  - rewrite (sum_zero (coo_triples A)) with (f := fun x => if off_diag x then _ else _); [ring|].
    intros t _. unfold off_diag, swap_t. cbn [fst snd]. destruct (Nat.eqb_spec (fst (fst t)) (snd (fst t))), (Nat.eqb_spec (snd (fst t)) j), (Nat.eqb_spec (fst (fst t)) j); cbn; auto; lia.
  - f_equal. apply sum_ext. intros t _. unfold off_diag, swap_t. cbn [fst snd].
    destruct (Nat.eqb_spec (fst (fst t)) (snd (fst t))), (Nat.eqb_spec (snd (fst t)) i), (Nat.eqb_spec (fst (fst t)) j); cbn; auto; lia.
Qed.

(** ** dense conversion *)
Lemma foldM_flat {X Y S} (f : S -> Y -> res S) (g : X -> list Y) l : forall s,
  foldM (flat_map g l) f s = foldM l (fun s x => foldM (g x) f s) s.
Proof. induction l as [|x l IH]; intros s; cbn; auto. rewrite foldM_app. destruct (foldM (g x) f s); cbn; auto. Qed.
Lemma foldM_map {X Y S} (f : S -> Y -> res S) (g : X -> Y) l : forall s, foldM (map g l) f s = foldM l (fun s x => f s (g x)) s.
Proof. induction l as [|x l IH]; intros s; cbn; auto. destruct (f s (g x)); cbn; auto. Qed.
Lemma foldM_ext {X S} (f g : S -> X -> res S) l : (forall s x, In x l -> f s x = g s x) -> forall s, foldM l f s = foldM l g s.
Proof.
  induction l as [|x l IH]; intros H s; cbn; auto. rewrite H by (left; auto). destruct (g s x); cbn; auto. apply IH. intros; apply H; right; auto.
Qed.
Lemma entry_one l c v : NoDup (map fst l) -> In (c, v) l -> entry l c = v.
Proof.
  unfold entry. induction l as [|[c' v'] l IH]; intros ND Hin; cbn [In] in Hin; [easy|].
  cbn [map fst] in ND. apply NoDup_cons_iff in ND. destruct ND as [Ni ND]. cbn [sum fst snd].
  destruct Hin as [[= -> ->]|Hin].
  - rewrite Nat.eqb_refl, sum_zero; [ring|]. intros [c1 v1] H1. cbn [fst snd]. destruct (Nat.eqb_spec c1 c) as [->|]; auto.
    exfalso. apply Ni. apply in_map_iff. exists (c, v1). auto.
  - destruct (Nat.eqb_spec c' c) as [->|].
    + exfalso. apply Ni. apply in_map_iff. exists (c, v). auto.
    + rewrite IH by auto. ring.
Qed.
Lemma entry_none l j : stored l j = false -> entry l j = 0%Qc.
Proof.
  intros H. unfold entry. apply sum_zero. intros cv Hcv. destruct (Nat.eqb_spec (fst cv) j) as [e|]; auto.
  assert (stored l j = true) by (apply existsb_exists; exists cv; split; auto; apply Nat.eqb_eq; auto). congruence.
Qed.
Definition cells (A : csr) : list (nat * (nat * Qc)) := flat_map (fun i => map (pair i) (csr_line A i)) (seq 0 (csr_m A)).
Lemma In_cells A i cv : In (i, cv) (cells A) <-> i < csr_m A /\ In cv (csr_line A i).
Proof.
  unfold cells. rewrite in_flat_map. split.
  - intros (x & Hx & Hi). apply in_seq in Hx. apply in_map_iff in Hi. destruct Hi as (y & [= -> ->] & Hy). split; auto; lia.
  - intros [H1 H2]. exists i. split; [apply in_seq; lia|]. apply in_map; auto.
Qed.
Lemma cells_locs A LD : csr_wf A -> csr_m A <= LD -> (forall i, i < csr_m A -> NoDup (map fst (csr_line A i))) ->
  NoDup (map (fun x : nat * (nat * Qc) => fst x + fst (snd x) * LD) (cells A)).
Proof.
  intros H HL ND. apply NoDup_map_on.
  - intros [i [c v]] [i' [c' v']] H1 H2 E. apply In_cells in H1, H2. cbn [fst snd] in E.
    destruct (loc_inj LD (csr_m A) c i c' i') as [-> ->]; try tauto; auto. destruct H1 as [_ H1], H2 as [Hi H2]. specialize (ND i' Hi).
    rewrite <- (entry_one _ _ _ ND H1), <- (entry_one _ _ _ ND H2). reflexivity.
  - unfold cells. apply NoDup_flat_map; [apply seq_NoDup| |].
    + intros i Hi. apply in_seq in Hi. apply NoDup_map_on; [congruence|]. apply (NoDup_map_inv fst). apply ND. lia.
    + intros i i' x _ _ I1 I2. apply in_map_iff in I1, I2. destruct I1 as (? & <- & _), I2 as (? & E & _). congruence.
Qed.
Lemma dense_of_csr_ok A D LD : csr_wf A -> csr_m A <= LD -> csr_n A * LD <= length D ->
  (forall i, i < csr_m A -> NoDup (map fst (csr_line A i))) ->
  exists D', dense_of_csr A D LD = Ok D' /\ length D' = length D /\
    (forall i j, i < csr_m A -> j < csr_n A ->
       nth (i + j * LD) D' 0%Qc = if stored (csr_line A i) j then csr_entry A i j else nth (i + j * LD) D 0%Qc) /\
    (forall p, (forall i j, i < csr_m A -> j < csr_n A -> p <> i + j * LD) -> nth p D' 0%Qc = nth p D 0%Qc).
Proof.
  intros H HL HD ND. unfold dense_of_csr. destruct (Nat.ltb_spec LD (csr_m A)) as [e|_]; [lia|].
  set (loc := fun x : nat * (nat * Qc) => fst x + fst (snd x) * LD).
  assert (E0 : forall s, foldM (seq 0 (csr_m A)) (fun D i =>
    do rp0 <- at_ (rowptr A) i;
    do rp1 <- at_ (rowptr A) (i + 1);
    do j_st <- minus_ rp0 (csr_ind A);
    do j_en <- minus_ rp1 (csr_ind A);
    foldM (seq 0 (j_en - j_st)) (fun D j =>
      do c <- at_ (colind A) (j_st + j);
      do v <- at_ (nzval A) (j_st + j);
      do p <- minus_ (i + c * LD) (csr_ind A * LD);
      put D p v) D) s = foldM (cells A) (fun D x => put D (loc x) (snd (snd x))) s).
  { intros s. unfold cells. rewrite foldM_flat. apply foldM_ext. intros s' i Hi. apply in_seq in Hi. destruct Hi as [_ Hi]. cbn [plus] in Hi.
    pose proof (ptr_range _ _ _ _ _ _ H i ltac:(lia)). pose proof (ptr_range _ _ _ _ _ _ H (S i) ltac:(lia)). pose proof (ptr_len H).
    rewrite !(at_ok _ _ 0) by lia. cbn [bind]. rewrite Nat.add_1_r, !minus_ok by lia. cbn [bind].
    destruct (row_bounds A i H Hi) as (B1 & B2 & B3 & B4).
    rewrite foldM_map. unfold csr_line. rewrite line_seq by (auto; destruct H as (_ & _ & _ & _ & V & _); auto).
    rewrite foldM_map. apply foldM_ext. intros s'' j Hj. apply in_seq in Hj.
    rewrite (at_ok _ _ 0) by lia. cbn [bind]. rewrite (at_ok _ _ 0%Qc) by lia. cbn [bind].
    destruct H as (_ & _ & _ & _ & V & HC).
    pose proof (HC (nth (nth i (rowptr A) 0 - csr_ind A + j) (colind A) 0) ltac:(apply nth_In; lia)) as HCj.
    rewrite minus_ok by nia. cbn [bind]. unfold loc. cbn [fst snd]. f_equal. rewrite Nat.mul_sub_distr_r.
    assert (csr_ind A * LD <= nth (nth i (rowptr A) 0 - csr_ind A + j) (colind A) 0 * LD) by nia. lia. }
  rewrite E0. clear E0.
  assert (LB : forall x, In x (cells A) -> loc x < length D).
  { intros [i [c v]] Hx. apply In_cells in Hx. destruct Hx as [Hi Hx]. destruct (csr_line_In A i _ H Hi Hx) as [Hc _]. unfold loc. cbn [fst snd] in *. nia. }
  destruct (foldM_cells 0%Qc (fun D x => put D (loc x) (snd (snd x))) loc (fun x _ => snd (snd x)) (cells A) D (length D)) as (D' & E & L' & R & U); auto.
  { apply cells_locs; auto. }
  { intros s x Hx Ls. apply put_ok. rewrite Ls. apply LB, Hx. }
  exists D'. split; auto. split; auto. split.
  - intros i j Hi Hj. destruct (stored (csr_line A i) j) eqn:ES.
    + apply existsb_exists in ES. destruct ES as ([c v] & Hcv & Ec). apply Nat.eqb_eq in Ec. cbn in Ec. subst c.
      assert (I : In (i, (j, v)) (cells A)) by (apply In_cells; auto). specialize (R _ I). unfold loc in R. cbn [fst snd] in R. rewrite R.
      symmetry. apply entry_one; auto.
    + apply U. intros HI. apply in_map_iff in HI. destruct HI as ([i' [c v]] & El & Hx). apply In_cells in Hx. unfold loc in El. cbn [fst snd] in El.
      destruct Hx as [Hi' Hx]. destruct (loc_inj LD (csr_m A) c i' j i) as [-> ->]; auto.
      assert (stored (csr_line A i) j = true) by (apply existsb_exists; exists (j, v); split; auto; apply Nat.eqb_refl). congruence.
  - intros p Hp. apply U. intros HI. apply in_map_iff in HI. destruct HI as ([i' [c v]] & El & Hx). apply In_cells in Hx. unfold loc in El. cbn [fst snd] in El.
    destruct Hx as [Hi' Hx]. destruct (csr_line_In A i' _ H Hi' Hx) as [Hc _]. apply (Hp i' c); auto.
Qed.
Lemma dense_of_coo_ok A D LD : coo_wf A -> coo_ind A = 0 -> coo_m A <= LD -> coo_n A * LD <= length D ->
  NoDup (combine (coo_row A) (coo_col A)) ->
  always (dense_of_coo A D LD) (fun D' => length D' = length D /\
    (forall i j, i < coo_m A -> j < coo_n A ->
       nth (i + j * LD) D' 0%Qc = if existsb (fun t => (fst (fst t) =? i) && (snd (fst t) =? j)) (coo_triples A) then coo_entry A i j else nth (i + j * LD) D 0%Qc) /\
    (forall p, (forall i j, i < coo_m A -> j < coo_n A -> p <> i + j * LD) -> nth p D' 0%Qc = nth p D 0%Qc)).
Proof.
  intros H I0 HL HD ND. unfold dense_of_coo. destruct (Nat.ltb_spec LD (coo_m A)) as [e|_]; [lia|].
  set (r := fun q => nth q (coo_row A) 0). set (c := fun q => nth q (coo_col A) 0). set (v := fun q => nth q (coo_val A) 0%Qc).
  assert (TS := coo_triples_seq A H). rewrite I0 in TS.
  assert (EC : combine (coo_row A) (coo_col A) = map (fun q => (r q, c q)) (seq 0 (length (coo_val A)))).
  { destruct H as (L1 & L2 & _). rewrite (list_as_map (coo_row A) 0) at 1. rewrite (list_as_map (coo_col A) 0) at 1. rewrite L1, L2. apply combine_map2. }
  rewrite EC in ND.
  assert (HB : forall q, q < length (coo_val A) -> r q < coo_m A /\ c q < coo_n A).
  { destruct H as (L1 & L2 & B1 & B2). rewrite I0 in B1, B2. intros q Hq. split; [apply (B1 (r q))|apply (B2 (c q))]; apply nth_In; lia. }
  assert (INJ : forall p q, p < length (coo_val A) -> q < length (coo_val A) -> r p = r q -> c p = c q -> p = q).
  { intros p q Hp Hq Er Ec. rewrite (NoDup_nth _ (0, 0)) in ND. rewrite map_length, seq_length in ND.
    apply ND; auto. rewrite !(nth_indep _ (0,0) ((fun q => (r q, c q)) 0)) by (rewrite map_length, seq_length; auto).
    rewrite !(map_nth (fun q => (r q, c q))), !seq_nth by auto. cbn [plus]. congruence. }
  eapply always_weaken; [|apply (parallel_cells 0%Qc _ (fun q => r q + c q * LD) (fun q _ => v q) _ _ (length D)); auto].
  - cbv beta. intros D' (L' & R & U). split; auto. split.
    + intros i j Hi Hj. match goal with |- context [if ?b then _ else _] => destruct b eqn:ES end.
      * apply existsb_exists in ES. destruct ES as (t & Ht & Et). rewrite TS in Ht. apply in_map_iff in Ht. destruct Ht as (q & <- & Hq).
        cbn [fst snd] in Et. rewrite !Nat.sub_0_r in Et. apply andb_prop in Et. destruct Et as [E1 E2]. apply Nat.eqb_eq in E1, E2. apply in_seq in Hq.
        fold (r q) in E1. fold (c q) in E2. subst i j. rewrite (R q) by (apply in_seq; lia).
        unfold coo_entry. rewrite TS, sum_map. symmetry. rewrite (sum_single (seq 0 (length (coo_val A))) q).
        -- cbn [fst snd]. rewrite !Nat.sub_0_r. fold (r q) (c q). rewrite !Nat.eqb_refl. reflexivity.
        -- apply seq_NoDup.
        -- apply in_seq; lia.
        -- intros p Hp Hne. apply in_seq in Hp. cbn [fst snd]. rewrite !Nat.sub_0_r. fold (r p) (c p).
           destruct (Nat.eqb_spec (r p) (r q)), (Nat.eqb_spec (c p) (c q)); cbn; auto. exfalso. apply Hne. apply INJ; auto; lia.
      * apply U. intros HI. apply in_map_iff in HI. destruct HI as (q & El & Hq). apply in_seq in Hq. specialize (HB q ltac:(lia)).
        destruct (loc_inj LD (coo_m A) (c q) (r q) j i) as [Ec Er]; try tauto; auto.
        assert (X : existsb (fun t => (fst (fst t) =? i) && (snd (fst t) =? j)) (coo_triples A) = true); [|congruence].
        apply existsb_exists. exists (r q - 0, c q - 0, v q). split; [rewrite TS; apply in_map_iff; exists q; split; auto; apply in_seq; lia|].
        cbn [fst snd]. rewrite !Nat.sub_0_r, Er, Ec, !Nat.eqb_refl. reflexivity.
    + intros p Hp. apply U. intros HI. apply in_map_iff in HI. destruct HI as (q & El & Hq). apply in_seq in Hq. specialize (HB q ltac:(lia)).
      apply (Hp (r q) (c q)); tauto || lia.
  - apply NoDup_map_on; [|apply seq_NoDup]. intros p q Hp Hq E. apply in_seq in Hp, Hq. pose proof (HB p ltac:(lia)). pose proof (HB q ltac:(lia)).
    destruct (loc_inj LD (coo_m A) (c p) (r p) (c q) (r q)) as [Ec Er]; try tauto; auto. apply INJ; auto; lia.
  - intros q Hq. apply in_seq in Hq. specialize (HB q ltac:(lia)). nia.
  - intros s q Hq Ls. apply in_seq in Hq. specialize (HB q ltac:(lia)). destruct H as (L1 & L2 & _).
    rewrite !(at_ok _ _ 0) by lia. cbn [bind]. rewrite (at_ok _ _ 0%Qc) by lia. cbn [bind].
    fold (r q) (c q) (v q). apply put_ok. nia.
Qed.
