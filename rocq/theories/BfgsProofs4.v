(** The discrete line search and the BFGS iteration. *)
From Coq Require Import QArith Qcanon Lqa.
From Verif Require Import Base SD Sums Ham Asci AsciSort Mem MemProofs DenseSpec DenseProofs DiisSpec DiisProofs DavSpec McscfSpec RotProofs ExpandProofs DiisProofs2 Bfgs BfgsSpec BfgsProofs BfgsProofs2 BfgsProofs3.
Local Open Scope nat_scope.

Definition grid (i : nat) : Qc := (1 - inject i * Q2Qc (1 # 100))%Qc.
Section DISC.
  Variables (eval : list Qc -> res Qc) (grad : list Qc -> res (list Qc)).
  Lemma grid_loop x0 p : forall k mv ms r, foldM (seq 1 k) (fun m ig =>
      let '(min_val, min_step) := m in
      let temp_step := grid ig in
      do t <- trial eval x0 p temp_step;
      Ok (if qlt (snd t) min_val then (snd t, temp_step) else (min_val, min_step))) (mv, ms) = Ok r ->
    eval (v_axpy (grid 0) p x0) = Ok mv -> ms = grid 0 ->
    (exists i, i <= k /\ snd r = grid i) /\ eval (v_axpy (snd r) p x0) = Ok (fst r) /\ forall i, i <= k -> exists f, eval (v_axpy (grid i) p x0) = Ok f /\ (fst r <= f)%Qc.
  Proof.
    induction k as [|k IH]; intros mv ms r H E ->.
    - cbn in H. injection H as <-. cbn [fst snd]. split; [exists 0; split; [lia|reflexivity]|]. split; [exact E|]. intros i Hi. assert (i = 0) by lia. subst i. exists mv. split; [exact E|apply Qcle_refl].
    - rewrite seq_S, foldM_app in H. binv H r1 F. apply IH in F; [|exact E|reflexivity]. destruct r1 as [v s]. cbn [fst snd] in F. destruct F as ((i0 & Hi0 & ->) & Ev & K).
      cbn [foldM Nat.add] in H. unfold trial in H. cbv zeta in H. binv H r2 H2. injection H as <-. binv H2 t T. binv T f1 F1. injection T as <-. cbn [snd] in H2. injection H2 as <-.
      destruct (qlt f1 v) eqn:L; cbn [fst snd].
      + apply qlt_true in L. split; [exists (S k); split; [lia|reflexivity]|]. split; [exact F1|]. intros i Hi. destruct (Nat.eq_dec i (S k)) as [->|ne]; [exists f1; split; [exact F1|apply Qcle_refl]|]. destruct (K i) as (f & Ef & Lf); [lia|]. exists f. split; [exact Ef|]. apply Qclt_le_weak. eapply Qclt_le_trans; eassumption.
      + apply qlt_false in L. split; [exists i0; split; [lia|reflexivity]|]. split; [exact Ev|]. intros i Hi. destruct (Nat.eq_dec i (S k)) as [->|ne]; [exists f1; split; [exact F1|exact L]|]. apply K. lia.
  Qed.
  Lemma discrete_spec x0 p s x f g : discrete_line_search eval grad x0 p = Ok (s, x, f, g) ->
    (exists i, i < 100 /\ s = grid i) /\ x = v_axpy s p x0 /\ eval x = Ok f /\ grad x = Ok g /\ forall i, i < 100 -> exists fi, eval (v_axpy (grid i) p x0) = Ok fi /\ (f <= fi)%Qc.
  Proof.
    intros H. unfold discrete_line_search in H. binv H f0 E0. binv H g0 G0. binv H t T. unfold trial in T. cbv zeta in T. binv T f1 F1. injection T as <-. cbn [snd] in H. binv H m M. destruct m as [v s'].
    assert (G0' : grid 0 = 1%Qc) by (apply Qc_is_canon; vm_compute; reflexivity). rewrite <- G0' in F1.
    change (foldM (seq 1 99) (fun m ig => let '(min_val, min_step) := m in let temp_step := grid ig in do t <- trial eval x0 p temp_step; Ok (if qlt (snd t) min_val then (snd t, temp_step) else (min_val, min_step))) (f1, 1%Qc) = Ok (v, s')) in M.
    rewrite <- G0' in M. apply grid_loop in M; [|exact F1|reflexivity]. cbn [fst snd] in M. destruct M as ((i & Hi & ->) & Ev & K). cbv zeta in H. binv H g' G. injection H as <- <- <- <-.
    split; [exists i; split; [lia|reflexivity]|]. split; [reflexivity|]. split; [exact Ev|]. split; [exact G|]. intros j Hj. apply K. lia.
  Qed.
End DISC.

(** ** the iteration *)
Section LOOP.
  Variables (eval : list Qc -> res Qc) (grad : list Qc -> res (list Qc)) (converged : list Qc -> list Qc -> bool) (n : nat).
  (* the kinds of starting matrix: the hessian after the steps, and the scale *)
  Variables (B0 : hessian) (c : list (list Qc * list Qc) -> Qc).
  Hypothesis Hp : h_pairs B0 = [].
  Hypothesis Hs : forall h, steps_ok n h -> starts n (fold_left (fun i sy => next_init i (the_gamma n sy)) h (h_init B0)) (scaled_identity (c h)).
  Hypothesis Hc0 : c [] = 1%Qc.
  Hypothesis SG : sized_gradient n grad.
  Local Notation H0 h := (scaled_identity (c h)).
  Definition state (h : list (list Qc * list Qc)) : hessian := mk_hessian (fold_left (fun i sy => next_init i (the_gamma n sy)) h (h_init B0)) (triples n h).
  Lemma state_apply h x : steps_ok n h -> length x = n -> exists q, h_apply (state h) x = Ok q /\ product_with n (inverse_hessian n (H0 h) h) x q.
  Proof. intros OK L. rewrite h_apply_two_loop. exact (two_loop_matrix n _ _ h (Hs h OK) OK x L). Qed.
  Lemma state_update h s y B : steps_ok n h -> length s = n -> length y = n -> h_update (state h) s y = Ok B -> dot n y s <> 0%Qc /\ B = state (h ++ [(s, y)]).
  Proof.
    intros OK Ls Ly H. assert (NZ : dot n y s <> 0%Qc).
    { intros e. unfold h_update in H. rewrite (v_dot_n n y s Ly) in H. unfold fdiv in H. destruct (Qc_eq_dec (dot n y s) 0); [discriminate H|contradiction]. }
    split; [exact NZ|]. rewrite (h_update_ok n _ s y Ls Ly NZ) in H. injection H as <-. unfold state. cbn [h_init h_pairs]. rewrite fold_left_app. unfold triples. rewrite map_app. reflexivity.
  Qed.
  Lemma steps_ok_snoc h s y : steps_ok n h -> length s = n -> length y = n -> dot n y s <> 0%Qc -> steps_ok n (h ++ [(s, y)]).
  Proof. intros OK Ls Ly NZ s' y' I. apply in_app_or in I. destruct I as [I|[E|[]]]; [exact (OK s' y' I)|]. injection E as <- <-. repeat split; assumption. Qed.
  (** one iteration of the line search along -d *)
  Definition step_taken (x g d x' : list Qc) : Prop := exists f f' k, (0 <= dot n g d)%Qc /\ k <= 19 /\ moved x d (- halves k)%Qc x' /\
      eval x = Ok f /\ eval x' = Ok f' /\ (f' <= f)%Qc /\ decreased f (- dot n g d)%Qc (halves k) f' /\
      forall j, j < k -> exists xj fj, moved x d (- halves j)%Qc xj /\ eval xj = Ok fj /\ ~ decreased f (- dot n g d)%Qc (halves j) fj.
  Lemma moved_neg x d t : length d = length x -> moved x d (- t)%Qc (v_axpy t (v_scal (- (1))%Qc d) x).
  Proof. intros L. split; [apply v_axpy_length|]. intros i Hi. rewrite v_axpy_nth by exact Hi. rewrite v_scal_nth by lia. ring. Qed.
  Lemma dot_neg g d : length d = n -> v_dot (v_scal (- (1))%Qc d) g = (- dot n g d)%Qc.
  Proof.
    intros L. rewrite (v_dot_n n) by (rewrite v_scal_length; exact L). unfold dot. rewrite (Sigma_ext n _ (fun i => - (1) * (nth i g 0 * nth i d 0))%Qc) by (intros i Hi; rewrite v_scal_nth by lia; ring). rewrite Sigma_scale. ring.
  Qed.
  Lemma search_step x g d s x' fx g' : length x = n -> grad x = Ok g -> length d = n -> backtracking_line_search eval grad x (v_scal (- (1))%Qc d) 1%Qc = Ok (s, x', fx, g') ->
    step_taken x g d x' /\ length x' = n /\ grad x' = Ok g'.
  Proof.
    intros Lx G Ld H. apply backtracking_spec in H. destruct H as (f0 & g0 & k & _ & E0 & G0 & D & Hk & -> & -> & Ex & Gx & Lf & Dec & Fail). rewrite G in G0. injection G0 as <-.
    rewrite (dot_neg g d Ld) in *. split; [|split; [rewrite v_axpy_length; exact Lx|exact Gx]].
    exists f0, fx, k. split; [clear - D; unfold Qcle in *; cbn [this Qcopp Q2Qc] in *; rewrite ?Qred_correct in *; lra|]. split; [exact Hk|]. split; [apply moved_neg; lia|]. split; [exact E0|]. split; [exact Ex|]. split; [exact Lf|]. split; [exact Dec|].
    intros j Hj. destruct (Fail j Hj) as (fj & Ej & Nj). exists (v_axpy (halves j) (v_scal (- (1))%Qc d) x), fj. split; [apply moved_neg; lia|]. split; assumption.
  Qed.
  Lemma v_sub_moved x y : moved x y (- (1))%Qc (v_sub x y).
  Proof. split; [apply v_sub_length|]. intros i Hi. rewrite v_sub_nth by exact Hi. ring. Qed.
  (** the path so far: [path], of changes [h] *)
  Lemma path_snoc path h x g d x' g' : bfgs_path n eval grad (fun h => H0 h) (path ++ [(x, g)]) h -> product_with n (inverse_hessian n (H0 h) h) g d -> step_taken x g d x' ->
    length x' = n -> grad x' = Ok g' -> bfgs_path n eval grad (fun h => H0 h) ((path ++ [(x, g)]) ++ [(x', g')]) (h ++ [(v_sub x' x, v_sub g' g)]).
  Proof.
    intros ((Lh & Ch) & Pt & St) PW TK Lx' Gx'. assert (Lp : length (path ++ [(x, g)]) = S (length path)) by (rewrite app_length; cbn; lia). rewrite Lp in *.
    assert (Lh' : length h = length path) by lia.
    split; [|split].
    - split; [rewrite (app_length h), (app_length (path ++ _)), Lp; cbn; lia|]. intros i Hi. rewrite app_length, Lp in Hi. cbn in Hi.
      destruct (Nat.eq_dec i (length path)) as [->|ne].
      + rewrite (app_nth1 (path ++ [(x, g)])) by lia. rewrite (app_nth2 path) by lia. rewrite Nat.sub_diag. cbn [nth]. rewrite (app_nth2 (path ++ [(x, g)])) by lia. rewrite Lp, Nat.sub_diag. cbn [nth]. rewrite (app_nth2 h) by lia. rewrite Lh', Nat.sub_diag. cbn [nth]. unfold change. cbn [fst snd]. split; apply v_sub_moved.
      + rewrite !(app_nth1 (path ++ [(x, g)])) by lia. rewrite (app_nth1 h) by lia. apply Ch. lia.
    - intros u v I. apply in_app_or in I. destruct I as [I|[E|[]]]; [apply Pt; exact I|]. injection E as <- <-. repeat split; try assumption. apply (SG x'); assumption.
    - intros i Hi. rewrite app_length, Lp in Hi. cbn in Hi. cbv zeta. destruct (Nat.eq_dec i (length path)) as [->|ne].
      + rewrite (app_nth1 (path ++ [(x, g)])) by lia. rewrite (app_nth2 path) by lia. rewrite Nat.sub_diag. cbn [nth]. rewrite (app_nth2 (path ++ [(x, g)])) by lia. rewrite Lp, Nat.sub_diag. cbn [nth fst snd].
        rewrite firstn_app, Lh', Nat.sub_diag, <- Lh', firstn_all. cbn [firstn]. rewrite app_nil_r. destruct TK as (f & f' & k & T). exists d, f, f', k. split; [exact PW|exact T].
      + rewrite !(app_nth1 (path ++ [(x, g)])) by lia. rewrite firstn_app. replace (i - length h) with 0 by lia. cbn [firstn]. rewrite app_nil_r. apply St. lia.
  Qed.
  Lemma loop_spec : forall k path h x g d r, bfgs_loop eval grad converged k x g (v_scal (- (1))%Qc d) (state h) = Ok r ->
    length x = n -> length d = n -> grad x = Ok g -> steps_ok n h -> bfgs_path n eval grad (fun h => H0 h) (path ++ [(x, g)]) h -> product_with n (inverse_hessian n (H0 h) h) g d ->
    exists path' h' g', length path' <= length path + k /\ length path < length path' /\ bfgs_path n eval grad (fun h => H0 h) (path' ++ [(fst r, g')]) h' /\ (exists t, path' ++ [(fst r, g')] = (path ++ [(x, g)]) ++ t) /\ converged (fst r) g' = true /\
      steps_ok n (firstn (length h' - 1) h').
  Proof.
    induction k as [|k IH]; intros path h x g d r H Lx Ld G OK P PW; [discriminate H|]. cbn [bfgs_loop] in H. binv H ls LS. destruct ls as [[[s x'] fx] g']. cbv zeta in H.
    destruct (search_step x g d s x' fx g' Lx G Ld LS) as (TK & Lx' & Gx'). rewrite Gx' in H. cbn [bind] in H.
    assert (Lg' : length g' = n) by (apply (SG x'); assumption).
    pose proof (path_snoc path h x g d x' g' P PW TK Lx' Gx') as P'.
    assert (LPh : length h = length path). { destruct P as ((L & _) & _). rewrite app_length in L. cbn in L. lia. }
    destruct (converged x' g') eqn:CV.
    - injection H as <-. cbn [fst]. exists (path ++ [(x, g)]), (h ++ [(v_sub x' x, v_sub g' g)]), g'. split; [rewrite app_length; cbn; lia|]. split; [rewrite app_length; cbn; lia|]. split; [exact P'|]. split; [eexists; reflexivity|]. split; [exact CV|].
      rewrite app_length. cbn [length]. replace (length h + 1 - 1) with (length h) by lia. rewrite firstn_app, Nat.sub_diag, firstn_all. cbn [firstn]. rewrite app_nil_r. exact OK.
    - binv H B HB. apply state_update in HB; [|exact OK|rewrite v_sub_length; exact Lx'|rewrite v_sub_length; exact Lg']. destruct HB as (NZ & ->).
      assert (OK' : steps_ok n (h ++ [(v_sub x' x, v_sub g' g)])) by (apply steps_ok_snoc; [exact OK|rewrite v_sub_length; exact Lx'|rewrite v_sub_length; exact Lg'|exact NZ]).
      destruct (state_apply _ g' OK' Lg') as (q & Q & PQ). rewrite Q in H. cbn [bind] in H.
      destruct (IH (path ++ [(x, g)]) _ x' g' q r H Lx' (proj1 PQ) Gx' OK' P' PQ) as (path' & h' & gr & L1 & L2 & PP & (t & ET) & CC & SS).
      exists path', h', gr. split; [rewrite app_length in L1; cbn in L1; lia|]. split; [rewrite app_length in L2; cbn in L2; lia|]. split; [exact PP|]. split; [|split; assumption]. exists ((x', g') :: t). rewrite ET, <- app_assoc. reflexivity.
  Qed.
  Lemma state_nil : state [] = B0.
  Proof. unfold state. cbn. rewrite <- Hp. destruct B0. reflexivity. Qed.
  Lemma start_product g : length g = n -> product_with n (inverse_hessian n (H0 []) []) g g.
  Proof. intros L. unfold inverse_hessian. cbn [fold_left]. rewrite Hc0. apply scaled_mv; [exact L|]. intros. ring. Qed.
  Lemma start_path x0 g : length x0 = n -> grad x0 = Ok g -> length g = n -> bfgs_path n eval grad (fun h => H0 h) ([] ++ [(x0, g)]) [].
  Proof.
    intros L G Lg. split; [split; [reflexivity|cbn; lia]|]. split; [|cbn; lia]. intros x g' [E|[]]. injection E as <- <-. repeat split; assumption.
  Qed.
  Lemma bfgs_spec x0 max_iter r : length x0 = n -> bfgs eval grad converged x0 B0 max_iter = Ok r ->
    exists path h g0 g, nth 0 path ([], []) = (x0, g0) /\ bfgs_path n eval grad (fun h => H0 h) (path ++ [(fst r, g)]) h /\ 1 <= length path <= max_iter /\ converged (fst r) g = true /\ steps_ok n (firstn (length h - 1) h).
  Proof.
    intros L H. unfold bfgs in H. binv H f0 E. binv H g G. rewrite <- state_nil in H. assert (Lg : length g = n) by (apply (SG x0); assumption).
    apply (loop_spec max_iter []) in H; [|exact L|exact Lg|exact G|intros ? ? []|apply start_path; assumption|apply start_product; exact Lg].
    destruct H as (path' & h' & g' & L1 & L2 & PP & (t & ET) & CC & SS). cbn in L1, L2. exists path', h', g, g'.
    split; [|split; [exact PP|split; [lia|split; assumption]]]. destruct path' as [|a path']; [cbn in L2; lia|]. cbn in ET. injection ET as -> _. reflexivity.
  Qed.
  Lemma bfgs_never_higher path h m : bfgs_path n eval grad (fun h => H0 h) path h -> S m <= length path -> forall f0, eval (fst (nth 0 path ([], []))) = Ok f0 -> exists f, eval (fst (nth m path ([], []))) = Ok f /\ (f <= f0)%Qc.
  Proof.
    intros (_ & _ & St). induction m as [|m IH]; intros Hm f0 E0; [exists f0; split; [exact E0|apply Qcle_refl]|].
    destruct (IH ltac:(lia) f0 E0) as (f & E & Lf). destruct (St m ltac:(lia)) as (d & f1 & f2 & k & _ & _ & _ & _ & E1 & E2 & Le & _). rewrite E in E1. injection E1 as <-. exists f2. split; [exact E2|eapply Qcle_trans; eassumption].
  Qed.

  (** ** strictly convex objectives *)
  Hypothesis C : computable n eval grad.
  Hypothesis SM : strictly_monotone n grad.
  Hypothesis CV0 : forall x g, length x = n -> length g = n -> ~ nonzero g -> converged x g = true.
  Hypothesis Hcp : forall h, steps_ok n h -> positive_curvature n h -> (0 < c h)%Qc.
  Lemma convex_loop : forall k h x g d, length x = n -> grad x = Ok g -> length d = n -> steps_ok n h -> positive_curvature n h ->
    product_with n (inverse_hessian n (H0 h) h) g d -> (nonzero g \/ h = []) -> fine (bfgs_loop eval grad converged k x g (v_scal (- (1))%Qc d) (state h)).
  Proof.
    induction k as [|k IH]; intros h x g d Lx G Ld OK PC PW NZ; [right; reflexivity|]. cbn [bfgs_loop].
    destruct (backtracking_total eval grad n C x (v_scal (- (1))%Qc d) 1%Qc Lx) as [([[[s x'] fx] g'] & LS)|E]; [|rewrite E; right; reflexivity]. rewrite LS. cbn [bind]. cbv zeta.
    destruct (search_step x g d s x' fx g' Lx G Ld LS) as (TK & Lx' & Gx'). rewrite Gx'. cbn [bind].
    assert (Lg' : length g' = n) by (apply (SG x'); assumption).
    destruct (converged x' g') eqn:CV; [left; eexists; reflexivity|].
    assert (NG' : nonzero g'). { destruct (all_zero_dec g') as [Z|Z]; [exact Z|]. rewrite CV0 in CV; [discriminate CV|exact Lx'|exact Lg'|]. intros (i & Hi & Nz). apply Nz, Z, Hi. }
    assert (Lg : length g = n) by (apply (SG x); assumption).
    assert (NX : x' <> x).
    { intros e. subst x'. rewrite G in Gx'. injection Gx' as <-. 
      assert (POS : positive n (inverse_hessian n (H0 h) h)) by (apply inverse_hessian_positive; [exact OK|exact PC|apply scaled_positive, Hcp; assumption]).
      pose proof (POS g Lg NG') as PG. rewrite <- (product_expectation n _ g d PW) in PG.
      destruct TK as (f & f' & kk & _ & _ & (_ & MV) & _).
      assert (D0 : dot n g d = 0%Qc).
      { unfold dot. rewrite (Sigma_ext n _ (fun _ => 0)%Qc); [apply LinRespProofs.Sigma_0|]. intros i Hi. assert (Z : (halves kk * nth i d 0 = 0)%Qc).
        { specialize (MV i ltac:(lia)). transitivity (nth i x 0 - (nth i x 0 + - halves kk * nth i d 0))%Qc; [ring|rewrite <- MV; ring]. }
        apply Qcmult_integral in Z. destruct Z as [Z|Z]; [|rewrite Z; ring]. exfalso. apply (Qclt_not_eq _ _ (halves_pos kk)). symmetry. exact Z. }
      rewrite D0 in PG. exact (Qclt_not_eq _ _ PG eq_refl). }
    assert (POSC : (0 < dot n (v_sub g' g) (v_sub x' x))%Qc).
    { apply (SM x x' g g' (v_sub x' x) (v_sub g' g)); try assumption; [intros e; apply NX; symmetry; exact e|]. split; cbn [fst snd]; apply v_sub_moved. }
    assert (NZ' : dot n (v_sub g' g) (v_sub x' x) <> 0%Qc) by (intros e; rewrite e in POSC; exact (Qclt_not_eq _ _ POSC eq_refl)).
    assert (OK' : steps_ok n (h ++ [(v_sub x' x, v_sub g' g)])) by (apply steps_ok_snoc; [exact OK|rewrite v_sub_length; exact Lx'|rewrite v_sub_length; exact Lg'|exact NZ']).
    assert (PC' : positive_curvature n (h ++ [(v_sub x' x, v_sub g' g)])). { intros a b I. apply in_app_or in I. destruct I as [I|[E|[]]]; [exact (PC a b I)|]. injection E as <- <-. exact POSC. }
    assert (UP : h_update (state h) (v_sub x' x) (v_sub g' g) = Ok (state (h ++ [(v_sub x' x, v_sub g' g)]))).
    { destruct (h_update (state h) (v_sub x' x) (v_sub g' g)) as [B|e] eqn:U.
      - apply state_update in U; [destruct U as (_ & ->); reflexivity|exact OK|rewrite v_sub_length; exact Lx'|rewrite v_sub_length; exact Lg'].
      - rewrite (h_update_ok n) in U; [discriminate U|rewrite v_sub_length; exact Lx'|rewrite v_sub_length; exact Lg'|exact NZ']. }
    rewrite UP. cbn [bind]. destruct (state_apply _ g' OK' Lg') as (q & Q & PQ). rewrite Q. cbn [bind]. apply IH; try assumption; [exact (proj1 PQ)|left; exact NG'].
  Qed.
  Lemma bfgs_convex x0 max_iter : length x0 = n -> fine (bfgs eval grad converged x0 B0 max_iter).
  Proof.
    intros L. unfold bfgs. destruct (C x0 L) as ((f & E) & g & G & Lg). rewrite E. cbn [bind]. rewrite G. cbn [bind]. rewrite <- state_nil. apply convex_loop; try assumption; [intros ? ? []|intros ? ? []|apply start_product; exact Lg|right; reflexivity].
  Qed.
End LOOP.
