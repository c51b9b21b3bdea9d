(** The gathered coefficients are the distributed vector. *)
From Coq Require Import QArith Qcanon Sorting.Permutation.
From Verif Require Import Base Nondet SD Sums Ham Asci Constraint Collective CollectiveProofs Dist DistProofs SparseSpec DavSpec Davidson DavProofs6 DavProofs9 DavProofs10 AsciMpi AsciPar.
Local Open Scope nat_scope.

Lemma slice_ok {A} off n (l : list A) : off + n <= length l -> slice off n l = Ok (firstn n (skipn off l)).
Proof. intros H. unfold slice. rewrite (proj2 (Nat.leb_le _ _) H). reflexivity. Qed.
Lemma skipn_twice {A} a : forall b (l : list A), skipn a (skipn b l) = skipn (b + a) l.
Proof. induction b as [|b IH]; intros l; [reflexivity|]. destruct l as [|x l]; [cbn; rewrite !skipn_nil; reflexivity|]. cbn [plus skipn]. apply IH. Qed.
Lemma set_range_split {A} off (new old : list A) : off + length new <= length old ->
  set_range off new old = firstn off old ++ new ++ skipn (off + length new) old.
Proof.
  intros H. rewrite <- (firstn_skipn off old) at 1. assert (L : length (firstn off old) = off) by (rewrite firstn_length; lia).
  rewrite <- L at 1. rewrite set_range_app by (rewrite skipn_length; lia). rewrite skipn_twice. reflexivity.
Qed.
Lemma resize_length n X : length (resize n X) = n.
Proof. unfold resize. rewrite app_length, firstn_length, repeat_length. lia. Qed.
Lemma map_repeat {A B} (f : A -> B) x n : map f (repeat x n) = repeat (f x) n.
Proof. induction n; cbn; congruence. Qed.
Lemma mapM_repeat {A B} (f : A -> res B) x y n : f x = Ok y -> mapM f (repeat x n) = Ok (repeat y n).
Proof. intros H. rewrite (mapM_ok f (fun _ => y)); [rewrite map_repeat; reflexivity|]. intros a Ha. apply repeat_spec in Ha. subst. exact H. Qed.
Lemma concat_len {A} q (l : list (list A)) : Forall (fun x => length x = q) l -> length (concat l) = q * length l.
Proof. induction 1; cbn [concat length]; [lia|]. rewrite app_length. lia. Qed.
Lemma map_firstn_id {A} q (l : list (list A)) : Forall (fun x => length x = q) l -> map (firstn q) l = l.
Proof. induction 1 as [|x l E F IH]; cbn [map]; [reflexivity|]. rewrite IH, <- E, firstn_all. reflexivity. Qed.

Lemma gather_split q r (init : list (list Qc)) l X : Forall (fun x => length x = q) init -> length l = q + r -> r < S (length init) ->
  gather_coefficients (S (length init)) (q * S (length init) + r) (init ++ [l]) (repeat X (S (length init))) = Ok (repeat (concat (init ++ [l])) (S (length init))).
Proof.
  intros F Ll Hr. set (P := S (length init)). unfold gather_coefficients.
  assert (D : (q * P + r) / P = q) by (symmetry; apply (Nat.div_unique _ _ _ r); [exact Hr|lia]).
  assert (R : (q * P + r) mod P = r) by (symmetry; apply (Nat.mod_unique _ _ q); [exact Hr|lia]).
  rewrite D, R. set (N := q * P + r) in *. rewrite map_repeat. set (X0 := resize N X). assert (L0 : length X0 = N) by apply resize_length.
  assert (LP : length (init ++ [l]) = P) by (rewrite app_length; cbn; unfold P; lia).
  set (blocks := concat init ++ firstn q l).
  assert (Lb : length blocks = q * P) by (unfold blocks; rewrite app_length, (concat_len q init F), firstn_length; unfold P; lia).
  assert (EA : MPI_Allgather q (init ++ [l]) (repeat X0 P) = Ok (repeat (blocks ++ skipn (q * P) X0) P)).
  { unfold MPI_Allgather. rewrite (mapM_ok _ (firstn q)).
    2:{ intros x Hx. rewrite slice_ok; [reflexivity|]. apply in_app_iff in Hx. destruct Hx as [Hx|[<-|[]]]; [rewrite Forall_forall in F; rewrite (F x Hx); lia|lia]. }
    cbn [bind]. erewrite mapM_repeat by (apply slice_ok; rewrite LP; lia). cbn [bind]. rewrite map_repeat. f_equal. f_equal.
    rewrite map_app, (map_firstn_id q init F). cbn [map]. rewrite concat_app. cbn [concat]. rewrite app_nil_r. fold blocks.
    rewrite set_range_split by (rewrite Lb; lia). cbn [firstn app]. rewrite Lb. reflexivity. }
  rewrite EA. cbn [bind]. set (X1 := blocks ++ skipn (q * P) X0).
  assert (EC : concat (init ++ [l]) = blocks ++ skipn q l).
  { rewrite concat_app. cbn [concat]. rewrite app_nil_r. unfold blocks. rewrite <- app_assoc, firstn_skipn. reflexivity. }
  assert (L1 : length X1 = N) by (unfold X1; rewrite app_length, skipn_length; lia).
  destruct (Nat.eqb_spec r 0) as [->|R0].
  - f_equal. f_equal. rewrite EC. unfold X1. f_equal. rewrite !skipn_all2 by lia. reflexivity.
  - assert (E1 : firstn (q * P) X1 = blocks) by (unfold X1; rewrite <- Lb, firstn_app, Nat.sub_diag, firstn_all, firstn_O, app_nil_r; reflexivity).
    rewrite (mapM_ok _ (fun rX : nat * list Qc => if fst rX =? P - 1 then concat (init ++ [l]) else snd rX)).
    2:{ intros [k x] Hx. cbn [fst snd]. apply in_combine_r in Hx. apply repeat_spec in Hx. subst x. destruct (Nat.eqb_spec k (P - 1)) as [->|]; [|reflexivity].
        unfold at_. rewrite nth_error_app2 by (unfold P; lia). replace (P - 1 - length init) with 0 by (unfold P; lia). cbn [nth_error bind].
        rewrite slice_ok by lia. cbn [bind]. rewrite slice_ok by lia. cbn [bind]. f_equal.
        assert (LS : length (firstn r (skipn q l)) = r) by (rewrite firstn_length, skipn_length; lia).
        rewrite set_range_split by lia. rewrite LS. rewrite (Nat.mul_comm P q), E1, EC. f_equal.
        rewrite (firstn_all2 (skipn q l)) by (rewrite skipn_length; lia). rewrite (skipn_all2 X1) by lia. rewrite app_nil_r. reflexivity. }
    cbn [bind]. set (Xs := map _ _).
    assert (LX : length Xs = P) by (unfold Xs; rewrite map_length, combine_length, seq_length, repeat_length; apply Nat.min_id).
    assert (NX : forall k, k < P -> nth k Xs [] = if k =? P - 1 then concat (init ++ [l]) else X1).
    { intros k Hk. unfold Xs. rewrite (nth_indep _ _ ((fun rX : nat * list Qc => if fst rX =? P - 1 then concat (init ++ [l]) else snd rX) (0, X1))) by (rewrite map_length, combine_length, seq_length, repeat_length; lia).
      rewrite (map_nth (fun rX : nat * list Qc => if fst rX =? P - 1 then concat (init ++ [l]) else snd rX)). rewrite combine_nth by (rewrite seq_length, repeat_length; reflexivity).
      rewrite seq_nth by exact Hk. cbn [fst snd plus]. rewrite nth_repeat. reflexivity. }
    assert (LC : length (concat (init ++ [l])) = N) by (rewrite EC, app_length, skipn_length; lia).
    unfold MPI_Bcast. unfold at_. rewrite (nth_error_nth' Xs []) by lia. cbn [bind]. rewrite NX by lia. rewrite Nat.eqb_refl.
    rewrite slice_ok by lia. cbn [bind].
    rewrite (mapM_ok _ (fun x => firstn r (skipn (P * q) x))).
    2:{ intros x Hx. apply slice_ok. apply (In_nth _ _ []) in Hx. destruct Hx as (k & Hk & <-). rewrite NX by lia. destruct (k =? P - 1); lia. }
    cbn [bind]. f_equal. apply (nth_ext _ _ [] []); [rewrite map_length, repeat_length; exact LX|]. intros k Hk. rewrite map_length in Hk.
    rewrite (nth_indep _ _ (set_range (P * q) (firstn r (skipn (P * q) (concat (init ++ [l])))) [])) by (rewrite map_length; exact Hk).
    rewrite map_nth. rewrite NX by lia. rewrite nth_indep with (d' := concat (init ++ [l])) by (rewrite repeat_length; lia). rewrite nth_repeat.
    assert (LS : length (firstn r (skipn (P * q) (concat (init ++ [l])))) = r) by (rewrite firstn_length, skipn_length; lia).
    assert (E2 : firstn (q * P) (concat (init ++ [l])) = blocks) by (rewrite EC, <- Lb, firstn_app, Nat.sub_diag, firstn_all, firstn_O, app_nil_r; reflexivity).
    assert (E3 : skipn (q * P) (concat (init ++ [l])) = skipn q l) by (rewrite EC, <- Lb, skipn_app, Nat.sub_diag, skipn_all; reflexivity).
    assert (FIN : forall x, length x = N -> firstn (q * P) x = blocks -> set_range (P * q) (firstn r (skipn (P * q) (concat (init ++ [l])))) x = concat (init ++ [l])).
    { intros x Lx Ex. rewrite set_range_split by lia. rewrite LS. rewrite (Nat.mul_comm P q), Ex, E3. rewrite (firstn_all2 (skipn q l)) by (rewrite skipn_length; lia).
      rewrite (skipn_all2 x) by lia. rewrite app_nil_r. symmetry. exact EC. }
    destruct (k =? P - 1); apply FIN; assumption.
Qed.

Lemma last_split {A} (l : list A) d : l <> [] -> l = removelast l ++ [last l d].
Proof. apply app_removelast_last. Qed.
Lemma gather_ok P n tiles Ys X : 0 < P -> default_tiles n P = Ok tiles -> tiling 0 n tiles -> shaped (extents tiles) Ys ->
  gather_coefficients P n Ys (repeat X P) = Ok (repeat (concat Ys) P).
Proof.
  intros HP DT T [LY SY]. rewrite extents_length in LY, SY. pose proof (tiles_len n P tiles DT HP) as LT.
  assert (NE : Ys <> []) by (intros ->; cbn in LY; lia). pose proof (last_split Ys [] NE) as EY. set (init := removelast Ys) in *. set (l := last Ys []) in *.
  assert (LI : S (length init) = P) by (rewrite EY in LY; rewrite app_length in LY; cbn in LY; lia).
  assert (EX : forall r, r < P -> nth r (extents tiles) 0 = if S r =? P then n - (P - 1) * (n / P) else n / P).
  { intros r Hr. destruct (extents_nth _ _ _ T _ _ _ (tile_at n P tiles DT HP r Hr)) as [_ E]. rewrite E.
    destruct (Nat.eqb_spec (S r) P) as [<-|]; [f_equal; f_equal; lia|]. lia. }
  pose proof (Nat.div_mod n P ltac:(lia)) as DM. pose proof (Nat.mod_upper_bound n P ltac:(lia)) as MB.
  set (q := n / P) in *. set (r := n mod P) in *.
  assert (F : Forall (fun x => length x = q) init).
  { apply Forall_forall. intros x Hx. apply (In_nth _ _ []) in Hx. destruct Hx as (k & Hk & <-).
    replace (nth k init []) with (nth k Ys []) by (rewrite EY, app_nth1 by exact Hk; reflexivity).
    rewrite SY by lia. rewrite EX by lia. destruct (Nat.eqb_spec (S k) P); [lia|reflexivity]. }
  assert (LL : length l = q + r).
  { replace l with (nth (P - 1) Ys []). rewrite SY by lia. rewrite EX by lia. replace (S (P - 1)) with P by lia. rewrite Nat.eqb_refl. nia.
    rewrite EY, app_nth2 by lia. replace (P - 1 - length init) with 0 by lia. reflexivity. }
  rewrite EY. replace n with (q * S (length init) + r) by (rewrite LI; lia). rewrite <- LI. apply gather_split; [exact F|exact LL|lia].
Qed.
